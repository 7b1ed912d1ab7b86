(** The closed-shell determinant. *)
From Coq Require Import Reals String List Arith Bool Lia Lra Permutation.
From Verif Require Import CBase Result Bits Spec OpSpec SQSpec LibProofs SafeProofs OperatorModel SQModel SQProofs FermiProofs SpinOps MolModel MolSpec MolProofs MolFrozen MolCore MolEnergy.
Import ListNotations.
Local Open Scope C_scope.

Lemma ones_bits m p : bit (2 ^ m - 1) p = (p <? m)%nat.
Proof.
  replace (2 ^ m - 1)%nat with (Nat.ones m) by (rewrite Nat.ones_equiv; lia). unfold bit. destruct (Nat.ltb_spec p m); [apply Nat.ones_spec_low|apply Nat.ones_spec_high]; lia.
Qed.
Lemma core_is_ket c na d : (2 * d <= na)%nat -> with_core c na (ket (2 ^ (2 * d) - 1)) == ket (2 ^ (2 * (c + d)) - 1).
Proof.
  intros Hd I. rewrite with_core_at. unfold ket. destruct (Nat.eqb_spec I (2 ^ (2 * (c + d)) - 1)) as [->|N].
  - assert (E : in_core c na (2 ^ (2 * (c + d)) - 1) = true) by (apply in_core_bits; split; intros p Hp; rewrite ones_bits; [apply Nat.ltb_lt|apply Nat.ltb_ge]; lia). rewrite E.
    replace ((2 ^ (2 * (c + d)) - 1) / 2 ^ (2 * c))%nat with (2 ^ (2 * d) - 1)%nat; [now rewrite Nat.eqb_refl|]. apply bits_ext. intros p. rewrite bit_shift, !ones_bits. destruct (Nat.ltb_spec p (2 * d)), (Nat.ltb_spec (p + 2 * c) (2 * (c + d))); try lia; reflexivity.
  - destruct (in_core c na I) eqn:E; [|reflexivity]. destruct (Nat.eqb_spec (I / 2 ^ (2 * c)) (2 ^ (2 * d) - 1)) as [E2|]; [|reflexivity]. exfalso. apply N. apply in_core_bits in E. destruct E as [E _]. apply bits_ext. intros p. rewrite ones_bits. destruct (Nat.lt_ge_cases p (2 * c)).
    + rewrite E by assumption. symmetry. apply Nat.ltb_lt. lia.
    + replace p with (p - 2 * c + 2 * c)%nat by lia. rewrite <- bit_shift, E2, ones_bits. destruct (Nat.ltb_spec (p - 2 * c) (2 * d)), (Nat.ltb_spec (p - 2 * c + 2 * c) (2 * (c + d))); try lia; reflexivity.
Qed.
Definition closed_shell_energy (e : R) (k : nat) (h : oeis) (g : teis) : C := RtoC e + Csum (fun i => RtoC (2 * h i i)) (seq 0 k) + Csum (fun i => Csum (fun j => RtoC (2 * g i i j j - g i j j i)) (seq 0 k)) (seq 0 k).
Theorem closed_shell e nmo c v d h g : RealOrbitals h g -> (c + d + v <= nmo)%nat ->
  let D := ket (2 ^ (2 * d) - 1) in inner (2 * (nmo - v - c)) D (fermi_act (mol_sq e nmo c v h g) D) = closed_shell_energy e (c + d) h g.
Proof.
  intros RO L D. rewrite <- (frozen_inner e nmo c v h g D D RO) by lia. set (X := with_core c (2 * (nmo - v - c)) D).
  assert (EX : X == with_core (c + d) (2 * (nmo - (nmo - (c + d)) - (c + d))) (ket 0)).
  { unfold X, D. eapply seq_trans; [apply core_is_ket; lia|]. apply seq_sym. change (ket 0) with (ket (2 ^ (2 * 0) - 1)). eapply seq_trans; [apply core_is_ket; lia|]. rewrite Nat.add_0_r. apply seq_refl. }
  set (Y := with_core (c + d) _ _) in EX.
  assert (EE : sadd (sscale (RtoC e) X) (electronic nmo h g X) == sadd (sscale (RtoC e) Y) (electronic nmo h g Y)).
  { intros I. unfold sadd, sscale. rewrite (EX I). f_equal. unfold electronic. f_equal.
    - do 3 (apply Csum_ext; intros ? _). f_equal. unfold hop. apply create_ext, annihilate_ext, EX.
    - do 6 (apply Csum_ext; intros ? _). f_equal. unfold scatter. apply create_ext, create_ext, annihilate_ext, annihilate_ext, EX. }
  rewrite (inner_ext _ _ _ _ _ EX EE). unfold Y. rewrite (frozen_inner e nmo (c + d) (nmo - (c + d)) h g (ket 0) (ket 0) RO) by lia.
  replace (nmo - (nmo - (c + d)) - (c + d))%nat with 0%nat by lia. rewrite (inner_ext 0 _ _ _ _ (seq_refl _) (mol_sq_act e nmo (c + d) (nmo - (c + d)) h g (ket 0) ltac:(apply RO))). replace (nmo - (nmo - (c + d)) - (c + d))%nat with 0%nat by lia.
  unfold inner. cbn [Nat.mul Nat.pow seq]. rewrite Csum_cons, Csum_nil. unfold sadd, sscale, electronic. cbn [seq]. rewrite !Csum_nil. unfold ket. cbn [Nat.eqb]. unfold closed_shell_energy.
  replace (RtoC (e + core_energy (c + d) h g)) with (RtoC e + RtoC (core_energy (c + d) h g)) by (apply C_ext; cbn; ring). rewrite core_energy_sum. apply C_ext; cbn; ring.
Qed.
