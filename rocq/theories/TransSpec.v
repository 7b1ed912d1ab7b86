(** Independent meaning of organizers: a word [w1; w2; ...] stands for the operator product
    w1 w2 ... (the last letter acts first), an organizer for the weighted sum. *)
From Coq Require Import Reals String List Arith Bool.
From Verif Require Import CBase Bits Spec.
Import ListNotations.
Local Open Scope C_scope.

(** <I| P_t |psi> for a Pauli letter; every other letter is the identity *)
Definition letter_act (s : string) (t : nat) (psi : state) : state := fun I =>
  (if String.eqb s "X" then psi (flip I t)
   else if String.eqb s "Y" then (if bit I t then Ci else - Ci) * psi (flip I t)
   else if String.eqb s "Z" then (if bit I t then - C1 else C1) * psi I
   else psi I)%string.
Definition word_act (w : list (string * nat)) (psi : state) : state :=
  fold_right (fun l => letter_act (fst l) (snd l)) psi w.
Definition org_act (o : list (C * list (string * nat))) (psi : state) : state :=
  fun I => Csum (fun t => fst t * word_act (snd t) psi I) o.
Definition pauli_letter (l : string * nat) : Prop := (fst l = "X" \/ fst l = "Y" \/ fst l = "Z")%string.
(** every qubit at most [k] times *)
Definition at_most (k : nat) (w : list (string * nat)) : Prop :=
  forall q, (length (filter (fun l => Nat.eqb (snd l) q) w) <= k)%nat.
(** strictly increasing qubits *)
Fixpoint increasing_word (w : list (string * nat)) : Prop :=
  match w with x :: ((y :: _) as r) => (snd x < snd y)%nat /\ increasing_word r | _ => True end.
