(** Specification vocabulary for excitation pools (C32) and irreps (C35).  A determinant is an
    [N] whose bit p is the occupation of spin orbital p (alpha: even p, beta: odd p). *)
From Coq Require Import Reals String List Arith NArith Bool.
From Verif Require Import CBase Spec SQSpec.
Import ListNotations.

Definition occ (D : N) (p : nat) : bool := N.testbit D (N.of_nat p).
(** the p < n for which f holds, in descending order *)
Fixpoint orbitals (f : nat -> bool) (n : nat) : list nat :=
  match n with O => [] | S k => if f k then k :: orbitals f k else orbitals f k end.
Definition holes (R D : N) (n : nat) : list nat := orbitals (fun p => occ R p && negb (occ D p)) n.
Definition particles (R D : N) (n : nat) : list nat := orbitals (fun p => occ D p && negb (occ R p)) n.
(** number of electrons with spin s (0 alpha, 1 beta) in the m lowest spatial orbitals *)
Fixpoint electrons (s m : nat) (D : N) : nat :=
  match m with O => O | S k => (electrons s k D + if occ D (2 * k + s) then 1 else 0)%nat end.
(** their occupation string read as a binary number *)
Fixpoint spin_string (s m : nat) (D : N) : N :=
  match m with O => 0%N | S k => (spin_string s k D + if occ D (2 * k + s) then 2 ^ N.of_nat k else 0)%N end.
Definition total_irrep (irreps : list N) (l : list nat) : N :=
  fold_right N.lxor 0%N (map (fun p => nth (p / 2) irreps 0%N) l).
(** D has 2m spin orbitals and is reached from R by a spin- and symmetry-conserving excitation
    of rank 1 .. max *)
Definition Excited (m : nat) (irreps : list N) (max : nat) (R D : N) : Prop :=
  (D < 2 ^ N.of_nat (2 * m))%N /\
  (forall s, (s < 2)%nat -> electrons s m D = electrons s m R) /\
  (1 <= length (holes R D (2 * m)) <= max)%nat /\
  total_irrep irreps (holes R D (2 * m) ++ particles R D (2 * m)) = 0%N.
(** T - T^dagger for the excitation from R to D *)
Definition excitation (R D : N) (n : nat) : list fterm :=
  [((C1, particles R D n), holes R D n); ((- C1, holes R D n), particles R D n)]%C.
