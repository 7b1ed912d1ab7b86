(** Specification for qubit tapering. *)
From Coq Require Import Reals List Arith Bool ZArith.
From Verif Require Import CBase Bits Spec OpSpec GateModel.
Import ListNotations.
Local Open Scope nat_scope.

(** two circuits commute as operators *)
Definition Commute (g h : list gate) : Prop := forall psi, circ_act g (circ_act h psi) == circ_act h (circ_act g psi).
Definition Anticommute (g h : list gate) : Prop := forall psi, circ_act g (circ_act h psi) == sscale (- C1)%C (circ_act h (circ_act g psi)).
(** the circuits selected by a mask, one after the other *)
Definition product (sel : list bool) (gens : list (list gate)) : list gate := concat (map snd (filter fst (combine sel gens))).
(** no product of some of them (at least one) is a multiple of the identity *)
Definition Independent (gens : list (list gate)) : Prop := forall sel, length sel = length gens ->
  (exists c, forall psi, circ_act (product sel gens) psi == sscale c psi) -> Forall (eq false) sel.
(** g is, up to a scalar, a product of some of the generators *)
Definition Generated (gens : list (list gate)) (g : list gate) : Prop := exists sel c, length sel = length gens /\
  forall psi, circ_act g psi == sscale c (circ_act (product sel gens) psi).
(** gate qubits below n *)
Definition Within (n : nat) (gs : list gate) : Prop := forall g, In g gs -> gtarget g < n.

(** remove bit p of I *)
Definition drop_bit (p I : nat) : nat := (I mod 2 ^ p + 2 ^ p * (I / 2 ^ S p))%nat.
(** the state phi on the remaining qubits, with every tapered qubit in the eigenstate |0> + s|1>
    of sigma_x of eigenvalue s; the qubits are listed in descending order *)
Fixpoint sector (tapered : list nat) (sign : list Z) (phi : state) : state :=
  match tapered, sign with
  | q :: tapered', s :: sign' => fun I => ((if bit I q then RtoC (IZR s) else C1) * sector tapered' sign' phi (drop_bit q I))%C
  | _, _ => phi
  end.
