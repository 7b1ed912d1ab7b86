(** Independent specification of the discrete Fourier transform on the qubits na, ..., na+n-1.
    Qubit na is the most significant bit of the transformed number. *)
From Coq Require Import Reals List Arith.
From Verif Require Import CBase Bits Spec.
Import ListNotations.
Local Open Scope C_scope.

(** the number held by the qubits na .. na+n-1 of the basis state I, and I with this number
    replaced by x *)
Definition val (na n I : nat) : nat := list_sum (map (fun l => b2n (bit I (na + l)) * 2 ^ (n - 1 - l)) (seq 0 n))%nat.
Definition put (na n I x : nat) : nat := fold_left (fun J l => upd J (na + l) (bit x (n - 1 - l))%nat) (seq 0 n) I.
(** (s = 1) forward and (s = -1) inverse transform *)
Definition dft (s : R) (na n : nat) (psi : state) : state := fun I =>
  RtoC (/ sqrt (2 ^ n)) * Csum (fun x => Ccis (s * (2 * PI * (INR x * INR (val na n I)) / 2 ^ n)) * psi (put na n I x)) (seq 0 (2 ^ n)).
