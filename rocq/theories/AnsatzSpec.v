(** What is assumed about std::sort on the terms of a qubit operator, and the operators UCC
    ansaetze are made of. *)
From Coq Require Import Reals List Arith Bool Sorted Permutation.
From Verif Require Import CBase Bits Spec GateModel OperatorModel SQSpec ExpSpec.
Import ListNotations.

(** [lt] is a strict weak ordering of the elements of [l] *)
Definition strict_weak {A} (lt : A -> A -> bool) (l : list A) : Prop :=
  (forall x, In x l -> lt x x = false) /\
  (forall x y z, In x l -> In y l -> In z l -> lt x y = true -> lt y z = true -> lt x z = true) /\
  (forall x y z, In x l -> In y l -> In z l -> lt x y = false -> lt y x = false -> lt y z = false -> lt z y = false -> lt x z = false /\ lt z x = false).
(** std::sort: a sorted permutation, provided the comparator is a strict weak ordering of the range *)
Definition legal_term_sort (sort : (C * list gate -> C * list gate -> bool) -> qop -> qop) : Prop :=
  forall lt l, strict_weak lt l -> Permutation (sort lt l) l /\ StronglySorted (fun x y => lt y x = false) (sort lt l).
(** a (T - T^dagger) for T = P^dagger H, written as the two terms of an SQOperator *)
Definition Antihermitian (a : R) (P H : list nat) : list fterm := [((RtoC a, P), H); ((RtoC (- a), H), P)].
(** how an SQOperator acts: as a fermionic operator, or with the qubit ladder operators *)
Definition act (qubit_excitations : bool) (o : list fterm) : state -> state := if qubit_excitations then qexc_act o else fermi_act o.
(** the index lists of an excitation: from the highest to the lowest, equally many, and at most
    one index in both, and then two indices in each *)
Definition Excitable (P H : list nat) : Prop :=
  P <> [] /\ length P = length H /\ StronglySorted (fun a b => b < a) P /\ StronglySorted (fun a b => b < a) H /\
  ((forall k, In k P -> ~ In k H) \/ exists q p s, p <> q /\ q <> s /\ p <> s /\ (P = [p; q] \/ P = [q; p]) /\ (H = [q; s] \/ H = [s; q])).
