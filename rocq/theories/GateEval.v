(** What the library gates do to a single amplitude. *)
From Coq Require Import Reals String List Arith Lia Bool Lra.
From Verif Require Import CBase Result Bits Spec GateModel GateProofs LibProofs.
Import ListNotations.
Local Open Scope C_scope.

Definition sgn (b : bool) : C := if b then - C1 else C1.
Definition swapbits (I a b : nat) : nat := upd (upd I a (bit I b)) b (bit I a).

Lemma ev_X t psi I : act1 m_X t psi I = psi (flip I t).
Proof. unfold act1, m_X, mk44. rewrite flip_upd. destruct (bit I t); cbn [b2n nth negb]; ring. Qed.
Lemma ev_Z t psi I : act1 m_Z t psi I = sgn (bit I t) * psi I.
Proof.
  unfold act1, m_Z, mk44, sgn. destruct (bit I t) eqn:E; cbn [b2n nth]; [rewrite (upd_id' I t true E)|rewrite (upd_id' I t false E)]; ring.
Qed.
Lemma ev_H t psi I : act1 m_H t psi I = RtoC rsqrt2 * (psi (upd I t false) + sgn (bit I t) * psi (upd I t true)).
Proof. unfold act1, m_H, mk44, sgn. fold rsqrt2. destruct (bit I t); cbn [b2n nth]; ring. Qed.
Lemma ev_Rz p t psi I : act1 (m_Rz p) t psi I = Ccis (if bit I t then 0.5 * p else - (0.5 * p))%R * psi I.
Proof.
  unfold act1, m_Rz, mk44. destruct (bit I t) eqn:E; cbn [b2n nth]; [rewrite (upd_id' I t true E)|rewrite (upd_id' I t false E)]; ring.
Qed.
Lemma upd_bits2 I t c a b : bit I c = a -> bit I t = b -> upd (upd I c a) t b = I.
Proof. intros <- <-. rewrite upd_id, upd_id. reflexivity. Qed.
Lemma ev_cX t c psi I : t <> c -> act2 m_cX t c psi I = psi (if bit I c then flip I t else I).
Proof.
  intros H. unfold act2, m_cX, mk44. rewrite flip_upd. destruct (bit I c) eqn:E, (bit I t) eqn:F; cbn [b2n nth Nat.mul Nat.add negb];
  rewrite ?(upd_id' I c _ E), ?(upd_id' I t _ F); ring.
Qed.
Lemma ev_acX t c psi I : t <> c -> act2 m_acX t c psi I = psi (if bit I c then I else flip I t).
Proof.
  intros H. unfold act2, m_acX, mk44. rewrite flip_upd. destruct (bit I c) eqn:E, (bit I t) eqn:F; cbn [b2n nth Nat.mul Nat.add negb];
  rewrite ?(upd_id' I c _ E), ?(upd_id' I t _ F); ring.
Qed.
Lemma ev_cZ t c psi I : act2 m_cZ t c psi I = sgn (bit I c && bit I t) * psi I.
Proof.
  unfold act2, m_cZ, mk44, sgn. destruct (bit I c) eqn:E, (bit I t) eqn:F; cbn [b2n nth Nat.mul Nat.add andb];
  rewrite ?(upd_id' I c _ E), ?(upd_id' I t _ F); ring.
Qed.
Lemma ev_cR p t c psi I : act2 (m_cR p) t c psi I = (if bit I c && bit I t then Ccis p else C1) * psi I.
Proof.
  unfold act2, m_cR, mk44. destruct (bit I c) eqn:E, (bit I t) eqn:F; cbn [b2n nth Nat.mul Nat.add andb];
  rewrite ?(upd_id' I c _ E), ?(upd_id' I t _ F); ring.
Qed.
Lemma ev_cRz p t c psi I : act2 (m_cRz p) t c psi I = if bit I c then act1 (m_Rz p) t psi I else psi I.
Proof.
  rewrite ev_Rz. unfold act2, m_cRz, mk44. destruct (bit I c) eqn:E, (bit I t) eqn:F; cbn [b2n nth Nat.mul Nat.add andb];
  rewrite ?(upd_id' I c _ E), ?(upd_id' I t _ F); ring.
Qed.
Lemma ev_SWAP t c psi I : t <> c -> act2 m_SWAP t c psi I = psi (swapbits I t c).
Proof.
  intros H. unfold act2, m_SWAP, mk44, swapbits. rewrite (upd_comm I t (bit I c) c (bit I t)) by exact H. destruct (bit I c) eqn:E, (bit I t) eqn:F; cbn [b2n nth Nat.mul Nat.add]; ring.
Qed.
Lemma bit_swapbits I a b k : a <> b -> bit (swapbits I a b) k = if Nat.eqb k a then bit I b else if Nat.eqb k b then bit I a else bit I k.
Proof.
  intros H. unfold swapbits. rewrite !bit_upd. destruct (Nat.eqb_spec k b) as [->|n]; [|reflexivity].
  destruct (Nat.eqb_spec b a) as [e|_]; [congruence|reflexivity].
Qed.
