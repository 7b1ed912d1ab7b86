(** Independent specification of the electronic Hamiltonian and of frozen orbitals. *)
From Coq Require Import Reals List Arith Bool.
From Verif Require Import CBase Bits Spec SQSpec.
Import ListNotations.
Local Open Scope C_scope.

(** a^_p a_q and a^_p a^_r a_s a_q *)
Definition hop (p q : nat) (psi : state) : state := create p (annihilate q psi).
Definition scatter (p r s q : nat) (psi : state) : state := create p (create r (annihilate s (annihilate q psi))).
(** spin orbital of spatial orbital p and spin s (0: alpha, 1: beta) *)
Definition so (p s : nat) : nat := (2 * p + s)%nat.
(** sum_{pq} h_pq sum_s a^_ps a_qs + 1/2 sum_{pqrs} (pq|rs) sum_{st} a^_ps a^_rt a_st a_qs
    over m spatial orbitals; (pq|rs) = g p q r s (Mulliken notation) *)
Definition electronic (m : nat) (h : nat -> nat -> R) (g : nat -> nat -> nat -> nat -> R) (psi : state) : state := fun I =>
  Csum (fun p => Csum (fun q => Csum (fun s => RtoC (h p q) * hop (so p s) (so q s) psi I) [0; 1]%nat) (seq 0 m)) (seq 0 m) +
  Csum (fun p => Csum (fun r => Csum (fun s => Csum (fun q =>
    Csum (fun a => Csum (fun b => RtoC (g p q r s / 2) * scatter (so p a) (so r b) (so s b) (so q a) psi I) [0; 1]%nat) [0; 1]%nat) (seq 0 m)) (seq 0 m)) (seq 0 m)) (seq 0 m).
(** integrals over real orbitals *)
Definition RealOrbitals (h : nat -> nat -> R) (g : nat -> nat -> nat -> nat -> R) : Prop :=
  (forall p q, h p q = h q p) /\ (forall p q r s, g p q r s = g q p r s) /\ (forall p q r s, g p q r s = g p q s r) /\ (forall p q r s, g p q r s = g r s p q).
(** the state psi of the [na] active spin orbitals, with the first 2c spin orbitals occupied and
    all above 2c + na empty *)
Definition with_core (c na : nat) (psi : state) : state := fun I =>
  let J := (I / 2 ^ (2 * c))%nat in
  if (Nat.eqb (I mod 2 ^ (2 * c)) (2 ^ (2 * c) - 1) && (J <? 2 ^ na)%nat)%bool then psi J else C0.
