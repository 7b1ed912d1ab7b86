(** Independent specification of what gates do to amplitudes.

    A state assigns a complex amplitude to every basis-state index; a register of
    n qubits uses the indices below 2^n (all others have amplitude 0).  Qubit t of
    basis state I is bit t of I. *)
From Coq Require Import Reals List Arith Bool.
From Verif Require Import CBase Bits.
Import ListNotations.
Local Open Scope C_scope.

Definition state := nat -> C.
Definition mat := nat -> nat -> C.

(** amplitude list of a simulator seen as a state *)
Definition amp (v : list C) : state := fun I => nth I v C0.

(** 2x2 matrix [m] acting on qubit [t]:  <I| m |psi> *)
Definition act1 (m : mat) (t : nat) (psi : state) : state := fun I =>
  let i := b2n (bit I t) in
  m i 0%nat * psi (upd I t false) + m i 1%nat * psi (upd I t true).

(** 4x4 matrix [m] acting on control [c] and target [t], row/column index
    2*bit_c + bit_t *)
Definition act2 (m : mat) (t c : nat) (psi : state) : state := fun I =>
  let i := (2 * b2n (bit I c) + b2n (bit I t))%nat in
  m i 0%nat * psi (upd (upd I c false) t false)
  + m i 1%nat * psi (upd (upd I c false) t true)
  + m i 2%nat * psi (upd (upd I c true) t false)
  + m i 3%nat * psi (upd (upd I c true) t true).

(** inner product <a|b> over an n-qubit register *)
Definition inner (n : nat) (a b : state) : C :=
  Csum (fun I => Cconj (a I) * b I) (seq 0 (2 ^ n)).

(** equality of states *)
Definition seq_eq (a b : state) : Prop := forall I, a I = b I.
Infix "==" := seq_eq (at level 70).

(** linear combination *)
Definition sadd (a b : state) : state := fun I => a I + b I.
Definition sscale (c : C) (a : state) : state := fun I => c * a I.
Definition szero : state := fun _ => C0.
(** basis state |J> *)
Definition ket (J : nat) : state := fun I => if Nat.eqb I J then C1 else C0.

(** conjugate transpose, identity, product *)
Definition madj (m : mat) : mat := fun i j => Cconj (m j i).
Definition mid : mat := fun i j => if Nat.eqb i j then C1 else C0.
Definition mmul (d : nat) (a b : mat) : mat := fun i j => Csum (fun k => a i k * b k j) (seq 0 d).
Definition meq (d : nat) (a b : mat) : Prop := forall i j, (i < d)%nat -> (j < d)%nat -> a i j = b i j.
Definition unitary (d : nat) (m : mat) : Prop :=
  meq d (mmul d (madj m) m) mid /\ meq d (mmul d m (madj m)) mid.
