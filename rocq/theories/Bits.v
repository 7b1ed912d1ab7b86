(** Bits of basis-state indices. *)
From Coq Require Import Arith Lia Bool List ZArith.
Import ListNotations.

Definition bit (I t : nat) : bool := Nat.testbit I t.
(** [QubitBasis::set_bit(pos,val)] (qubit_basis.h:33) on an unbounded index; the
    64-bit formula of the code is modelled and related to this in QubitBasis*.v. *)
Definition upd (I t : nat) (b : bool) : nat := if b then Nat.setbit I t else Nat.clearbit I t.
(** [QubitBasis::flip_bit] (qubit_basis.h:36) *)
Definition flip (I t : nat) : nat := Nat.lxor I (2 ^ t).
Definition b2n (b : bool) : nat := if b then 1 else 0.

Lemma bit_upd I t b k : bit (upd I t b) k = if Nat.eqb k t then b else bit I k.
Proof.
  unfold bit, upd. destruct b.
  - rewrite Nat.setbit_eqb. rewrite Nat.eqb_sym. destruct (Nat.eqb k t); reflexivity.
  - rewrite Nat.clearbit_eqb. rewrite Nat.eqb_sym. destruct (Nat.eqb k t); simpl;
      rewrite ?andb_false_r, ?andb_true_r; reflexivity.
Qed.
Lemma bit_upd_same I t b : bit (upd I t b) t = b.
Proof. rewrite bit_upd, Nat.eqb_refl; reflexivity. Qed.
Lemma bit_upd_other I t b k : k <> t -> bit (upd I t b) k = bit I k.
Proof. intros H; rewrite bit_upd. apply Nat.eqb_neq in H; rewrite H; reflexivity. Qed.
Lemma bits_ext I J : (forall k, bit I k = bit J k) -> I = J.
Proof. intros H; apply Nat.bits_inj; exact H. Qed.

Ltac bitsolve :=
  apply bits_ext; let k := fresh "k" in intros k; rewrite ?bit_upd;
  repeat match goal with
  | |- context [Nat.eqb ?a ?b] => destruct (Nat.eqb_spec a b); subst; try lia
  end; try reflexivity; try congruence.

Lemma upd_upd I t b b' : upd (upd I t b) t b' = upd I t b'.
Proof. bitsolve. Qed.
Lemma upd_comm I t b u c : t <> u -> upd (upd I t b) u c = upd (upd I u c) t b.
Proof. intros; bitsolve. Qed.
Lemma upd_id I t : upd I t (bit I t) = I.
Proof. bitsolve. Qed.
Lemma upd_id' I t b : bit I t = b -> upd I t b = I.
Proof. intros <-; apply upd_id. Qed.

Lemma bit_flip I t k : bit (flip I t) k = if Nat.eqb k t then negb (bit I k) else bit I k.
Proof.
  unfold bit, flip. rewrite Nat.lxor_spec, Nat.pow2_bits_eqb, (Nat.eqb_sym t k).
  destruct (Nat.eqb k t), (Nat.testbit I k); reflexivity.
Qed.
Lemma flip_upd I t : flip I t = upd I t (negb (bit I t)).
Proof.
  apply bits_ext; intros k. rewrite bit_flip, bit_upd.
  destruct (Nat.eqb_spec k t); subst; reflexivity.
Qed.
Lemma flip_flip I t : flip (flip I t) t = I.
Proof.
  apply bits_ext; intros k. rewrite !bit_flip.
  destruct (Nat.eqb k t); [apply negb_involutive|reflexivity].
Qed.
Lemma flip_comm I t u : flip (flip I t) u = flip (flip I u) t.
Proof.
  apply bits_ext; intros k; rewrite !bit_flip.
  destruct (Nat.eqb k t), (Nat.eqb k u); reflexivity.
Qed.

(** register bound in terms of bits *)
Lemma lt_pow2_bits n I : I < 2 ^ n <-> (forall k, n <= k -> bit I k = false).
Proof.
  split.
  - intros H k Hk. unfold bit. destruct (Nat.eq_dec I 0) as [->|H0]; [apply Nat.bits_0|].
    apply Nat.bits_above_log2. apply Nat.lt_le_trans with n; [|exact Hk].
    apply Nat.log2_lt_pow2; lia.
  - intros H. destruct (Nat.eq_dec I 0) as [->|H0]; [apply Nat.neq_0_lt_0, Nat.pow_nonzero; lia|].
    apply Nat.log2_lt_pow2; [lia|].
    destruct (Nat.lt_ge_cases (Nat.log2 I) n) as [L|L]; [exact L|].
    exfalso. pose proof (H _ L) as E. unfold bit in E. rewrite Nat.bit_log2 in E by exact H0. discriminate.
Qed.
Lemma upd_lt n I t b : t < n -> I < 2 ^ n -> upd I t b < 2 ^ n.
Proof.
  intros Ht H. apply lt_pow2_bits; intros k Hk. rewrite bit_upd_other by lia.
  apply lt_pow2_bits with n; assumption.
Qed.
Lemma upd_lt_inv n I t b : t < n -> upd I t b < 2 ^ n -> I < 2 ^ n.
Proof.
  intros Ht H. apply lt_pow2_bits; intros k Hk. rewrite lt_pow2_bits in H.
  specialize (H k Hk). rewrite bit_upd_other in H by lia. exact H.
Qed.
Lemma flip_lt n I t : t < n -> I < 2 ^ n -> flip I t < 2 ^ n.
Proof. intros; rewrite flip_upd; apply upd_lt; assumption. Qed.

Lemma pow2_pos n : 0 < 2 ^ n.
Proof. apply Nat.neq_0_lt_0, Nat.pow_nonzero; lia. Qed.
Lemma pow2_S n : 2 ^ S n = 2 ^ n + 2 ^ n.
Proof. simpl; lia. Qed.

(** arithmetic form: bit t clear/set *)
Lemma bit_div I t : bit I t = Nat.odd (I / 2 ^ t).
Proof. unfold bit. rewrite Nat.testbit_odd, Nat.shiftr_div_pow2; reflexivity. Qed.

Lemma upd_true_add I t : bit I t = false -> upd I t true = I + 2 ^ t.
Proof.
  intros H. unfold upd, bit in *. rewrite Nat.setbit_spec'.
  rewrite <- Nat.lxor_lor, <- Nat.add_nocarry_lxor; [lia| |];
  apply bits_ext; intros k; unfold bit; rewrite Nat.land_spec, Nat.pow2_bits_eqb, Nat.bits_0;
  destruct (Nat.eqb_spec t k); subst; rewrite ?H, ?andb_false_r; reflexivity.
Qed.
Lemma upd_false_add I t : bit I t = true -> I = upd I t false + 2 ^ t.
Proof.
  intros H. rewrite <- upd_true_add by apply bit_upd_same.
  rewrite upd_upd, upd_id' by exact H. reflexivity.
Qed.

(** binary decomposition around one bit *)
Lemma bit_decomp t k b r : r < 2 ^ t -> bit (k * 2 ^ S t + b2n b * 2 ^ t + r) t = b.
Proof.
  intros Hr. rewrite bit_div.
  replace (k * 2 ^ S t + b2n b * 2 ^ t + r) with (r + (2 * k + b2n b) * 2 ^ t) by (rewrite pow2_S; nia).
  rewrite Nat.div_add by (apply Nat.pow_nonzero; lia). rewrite Nat.div_small by exact Hr.
  rewrite Nat.add_0_l, Nat.odd_add, Nat.odd_mul. simpl. destruct b; reflexivity.
Qed.
Lemma bit_low t k b r u : u < t -> bit (k * 2 ^ S t + b2n b * 2 ^ t + r) u = bit r u.
Proof.
  intros Hu. unfold bit.
  replace (k * 2 ^ S t + b2n b * 2 ^ t + r) with (r + (2 * k + b2n b) * 2 ^ t) by (rewrite pow2_S; nia).
  rewrite <- (Nat.mod_pow2_bits_low (r + _) t u) by exact Hu.
  rewrite Nat.mod_add by (apply Nat.pow_nonzero; lia).
  apply Nat.mod_pow2_bits_low; exact Hu.
Qed.
Lemma bit_decomp_ex t I : exists k r, r < 2 ^ t /\ I = k * 2 ^ S t + b2n (bit I t) * 2 ^ t + r.
Proof.
  exists (I / 2 ^ t / 2), (I mod 2 ^ t). split; [apply Nat.mod_upper_bound, Nat.pow_nonzero; lia|].
  pose proof (Nat.div_mod I (2 ^ t) ltac:(apply Nat.pow_nonzero; lia)) as E1.
  pose proof (Nat.div_mod (I / 2 ^ t) 2 ltac:(lia)) as E2.
  assert (E3 : b2n (bit I t) = (I / 2 ^ t) mod 2).
  { exact (Nat.testbit_spec' I t). }
  rewrite E3, pow2_S. nia.
Qed.
