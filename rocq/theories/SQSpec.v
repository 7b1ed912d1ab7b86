(** Independent specification of second-quantised operators on occupation-number states.
    Spin orbital p is occupied in determinant I iff bit p of I is set; the sign counts the
    occupied orbitals below p. *)
From Coq Require Import Reals List Arith Bool.
From Verif Require Import CBase Bits Spec.
Import ListNotations.
Local Open Scope C_scope.

Definition sgn (b : bool) : C := if b then - C1 else C1.
(** is the number of occupied orbitals below p odd? *)
Fixpoint odd_below (I p : nat) : bool :=
  match p with O => false | S q => xorb (bit I q) (odd_below I q) end.
(** annihilation operator: <I| a_p |psi> *)
Definition annihilate (p : nat) (psi : state) : state := fun I =>
  if bit I p then C0 else sgn (odd_below I p) * psi (upd I p true).
(** creation operator: <I| a_p^dagger |psi> *)
Definition create (p : nat) (psi : state) : state := fun I =>
  if bit I p then sgn (odd_below I p) * psi (upd I p false) else C0.

(** a term c * a^_{p1} a^_{p2} ... a_{q1} a_{q2} ... (rightmost acts first) *)
Definition fterm := (C * list nat * list nat)%type.
Definition fcoef (t : fterm) : C := fst (fst t).
Definition fcre (t : fterm) : list nat := snd (fst t).
Definition fann (t : fterm) : list nat := snd t.
Definition ladder_act (cre ann : list nat) (psi : state) : state :=
  fold_right create (fold_right annihilate psi ann) cre.
Definition fermi_act (o : list fterm) (psi : state) : state :=
  fun I => Csum (fun t => fcoef t * ladder_act (fcre t) (fann t) psi I) o.

(** qubit (hard-core boson) excitation operators: the same without the sign *)
Definition lower (p : nat) (psi : state) : state := fun I => if bit I p then C0 else psi (upd I p true).
Definition raise (p : nat) (psi : state) : state := fun I => if bit I p then psi (upd I p false) else C0.
Definition qladder_act (cre ann : list nat) (psi : state) : state :=
  fold_right raise (fold_right lower psi ann) cre.
Definition qexc_act (o : list fterm) (psi : state) : state :=
  fun I => Csum (fun t => fcoef t * qladder_act (fcre t) (fann t) psi I) o.

(** number of pairs out of descending order *)
Fixpoint inversions (l : list nat) : nat :=
  match l with [] => 0%nat | x :: r => (length (filter (fun y => x <? y)%nat r) + inversions r)%nat end.
Definition descending (l : list nat) : Prop :=
  forall i j d, (i < j < length l)%nat -> (nth j l d <= nth i l d)%nat.
(** two different terms have different operator lists *)
Definition fkey (t : fterm) : list nat * list nat := (fcre t, fann t).
Definition fnegligible (o : list fterm) : Prop :=
  Forall (fun t => (Cabs (fcoef t) <= 1e-12)%R) o /\ NoDup (map fkey o).
