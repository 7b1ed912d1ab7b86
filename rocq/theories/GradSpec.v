(** What an energy gradient is, independently of the code. *)
From Coq Require Import Reals List.
From Verif Require Import CBase Bits Spec ExpSpec.
Import ListNotations.

(** the real part of <phi|H|phi> on an n-qubit register *)
Definition energy (n : nat) (H : state -> state) (phi : state) : R := Re (inner n phi (H phi)).
Definition self_adjoint (n : nat) (H : state -> state) : Prop := forall a b, inner n a (H b) = inner n (H a) b.
(** e is the energy of the state reached from psi by the exponentials l, the first acting first *)
Definition energy_after (n : nat) (H : state -> state) (l : list (C * (state -> state))) (psi : state) (e : R) : Prop :=
  exists phi, exp_product l psi phi /\ e = energy n H phi.
(** d is the derivative at x0 of the energy reached by the exponentials l(x) *)
Definition slope (n : nat) (H : state -> state) (l : R -> list (C * (state -> state))) (psi : state) (x0 d : R) : Prop :=
  (exists E, forall x, energy_after n H (l x) psi (E x)) /\
  (forall E, (forall x, energy_after n H (l x) psi (E x)) -> derivable_pt_lim E x0 d).
(** the list with the value at position k replaced *)
Fixpoint replace {A} (l : list A) (k : nat) (x : A) : list A :=
  match l, k with [], _ => [] | _ :: r, O => x :: r | y :: r, S k => y :: replace r k x end.
