(** Index form of Pauli gates: X/Y/Z on qubit t read one amplitude each. *)
From Coq Require Import Reals String List Arith Lia Bool Lra.
From Verif Require Import CBase Result Bits Spec GateModel ComputerModel CircuitModel SafeProofs GateProofs LibProofs PauliProofs.
Import ListNotations.
Local Open Scope string_scope.
Local Open Scope C_scope.
Definition pidx (s : string) (t I : nat) : nat := if (s =? "X") || (s =? "Y") then flip I t else I.
Definition pph (s : string) (t I : nat) : C :=
  if s =? "Y" then (if bit I t then Ci else - Ci) else if s =? "Z" then (if bit I t then - C1 else C1) else C1.
Lemma pact_idx s t psi I : is_pauli_label s = true -> pact s t psi I = pph s t I * psi (pidx s t I).
Proof.
  intros H. unfold pidx, pph. destruct (pauli_label_cases s H) as [-> | [-> | ->]]; cbn [pact String.eqb Ascii.eqb Bool.eqb orb]; unfold pact; cbn [String.eqb Ascii.eqb Bool.eqb];
    rewrite ?flip_upd; unfold act1, m_X, m_Y, m_Z, mk44; destruct (bit I t) eqn:E; cbn [b2n nth negb];
    rewrite ?(upd_id' I t _ E); ring.
Qed.
Lemma pph_abs s t I : Cabs (pph s t I) = 1%R.
Proof.
  assert (HI : Cabs Ci = 1%R). { unfold Cabs, Cnorm2. cbn. replace (0 * 0 + 1 * 1)%R with 1%R by ring. apply sqrt_1. }
  unfold pph. destruct (s =? "Y"); [destruct (bit I t); rewrite ?Cabs_neg; exact HI|].
  destruct (s =? "Z"); [destruct (bit I t); rewrite ?Cabs_neg; apply Cabs_C1|apply Cabs_C1].
Qed.
Lemma pidx_invol s t I : pidx s t (pidx s t I) = I.
Proof. unfold pidx. destruct (_ || _); [apply flip_flip|reflexivity]. Qed.
Lemma pauli_idx g psi I : pauli_gate g -> gate_act g psi I = pph (glabel g) (gtarget g) I * psi (pidx (glabel g) (gtarget g) I).
Proof. intros H. rewrite (pauli_act g psi H). apply pact_idx. apply H. Qed.

(** phased basis states are preserved by Pauli gates *)
Definition phased (psi : state) : Prop := exists K c, Cabs c = 1%R /\ psi == sscale c (ket K).
Lemma phased_pauli g psi : pauli_gate g -> phased psi -> phased (gate_act g psi).
Proof.
  intros HG (K & c & H1 & H2). set (s := glabel g). set (t := gtarget g). exists (pidx s t K), (pph s t (pidx s t K) * c).
  split; [rewrite Cabs_mul, pph_abs, H1; ring|]. intros J. rewrite (pauli_idx g psi J HG), H2. fold s t. unfold sscale, ket.
  destruct (Nat.eqb_spec (pidx s t J) K) as [E|E], (Nat.eqb_spec J (pidx s t K)) as [E'|E'].
  - subst J. ring.
  - exfalso. apply E'. rewrite <- E, pidx_invol. reflexivity.
  - exfalso. apply E. rewrite E', pidx_invol. reflexivity.
  - ring.
Qed.
Lemma phased_ket K : phased (ket K).
Proof. exists K, C1. split; [apply Cabs_C1|]. intros I. unfold sscale. ring. Qed.
Lemma phased_circ gs : Forall pauli_gate gs -> forall psi, phased psi -> phased (circ_act gs psi).
Proof. induction 1 as [|g gs H HF IH]; intros psi Hp; [exact Hp|]. apply IH. apply phased_pauli; assumption. Qed.
