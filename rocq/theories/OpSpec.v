(** Independent specification of qubit operators: a list of (coefficient, circuit)
    stands for the linear map psi |-> sum_k c_k U_k psi, where U_k applies the gates of
    the circuit in the order of the list. *)
From Coq Require Import Reals List.
From Verif Require Import CBase Spec GateModel.

Definition op_act (o : list (C * list gate)) (psi : state) : state :=
  fun I => Csum (fun t => (fst t * circ_act (snd t) psi I)%C) o.
(** difference of states *)
Definition ssub (a b : state) : state := fun I => (a I - b I)%C.
(** dropped terms: pairwise different circuits, every coefficient at most 1e-12 *)
Definition negligible (o : list (C * list gate)) : Prop :=
  Forall (fun t => (Cabs (fst t) <= 1e-12)%R) o /\ NoDup (map snd o).
