(** Specification of spin-adapted operators. *)
From Coq Require Import Reals List Arith.
From Verif Require Import CBase Bits Spec SQSpec.
Import ListNotations.
Local Open Scope C_scope.

Definition ssub (a b : state) : state := fun I => a I - b I.
(** E_pq: moves an electron of either spin from spatial orbital q to p *)
Definition transfer (p q : nat) (psi : state) : state :=
  sadd (create (2 * p) (annihilate (2 * q) psi)) (create (2 * p + 1) (annihilate (2 * q + 1) psi)).
(** spin raising and lowering operators of m spatial orbitals *)
Definition spin_plus (m : nat) (psi : state) : state := fun I => Csum (fun p => create (2 * p) (annihilate (2 * p + 1) psi) I) (seq 0 m).
Definition spin_minus (m : nat) (psi : state) : state := fun I => Csum (fun p => create (2 * p + 1) (annihilate (2 * p) psi) I) (seq 0 m).
(** singlet-coupled single and double excitations i, j -> a, b minus their adjoints *)
Definition singlet_single (i a : nat) (psi : state) : state := ssub (transfer a i psi) (transfer i a psi).
Definition singlet_plus (i j a b : nat) (psi : state) : state :=
  ssub (sadd (transfer a i (transfer b j psi)) (transfer a j (transfer b i psi))) (sadd (transfer j b (transfer i a psi)) (transfer i b (transfer j a psi))).
Definition singlet_minus (i j a b : nat) (psi : state) : state :=
  ssub (ssub (transfer a i (transfer b j psi)) (transfer a j (transfer b i psi))) (ssub (transfer j b (transfer i a psi)) (transfer i b (transfer j a psi))).
