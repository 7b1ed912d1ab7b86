(** Independent specification of measurements: projectors and the Born rule. *)
From Coq Require Import Reals List Arith.
From Verif Require Import CBase Spec GateModel.
Import ListNotations.

(** squared norm of a state on n qubits *)
Definition born (n : nat) (psi : state) : R := Re (inner n psi psi).
(** eigenvalue that goes with a measured bit *)
Definition sign_of (b : nat) : R := if Nat.eqb b 0 then 1%R else (-1)%R.
(** projector (1 + r P)/2 of a Pauli string P on the outcome r = +1/-1 *)
Definition value_projector (gs : list gate) (r : R) (psi : state) : state :=
  fun I => (RtoC (1 / 2) * (psi I + RtoC r * circ_act gs psi I))%C.
(** all the factors of the string measured one by one, with bits bs *)
Fixpoint joint_projector (gs : list gate) (bs : list nat) (psi : state) : state :=
  match gs, bs with
  | g :: gs', b :: bs' => joint_projector gs' bs' (value_projector [g] (sign_of b) psi)
  | _, _ => psi
  end.
(** sum of the probabilities of the basis states that satisfy a test *)
Definition total (probs : list R) (test : nat -> bool) : R :=
  fold_right (fun k acc => ((if test k then nth k probs 0 else 0) + acc)%R) 0%R (seq 0 (length probs)).
