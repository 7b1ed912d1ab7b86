(** Real generators that couple every basis state I with one other F(I), and the rotations they generate. *)
From Coq Require Import Reals List Arith Bool Lia Lra FunctionalExtensionality.
From Verif Require Import CBase Bits Spec ExpSpec ExpProofs CompactProofs.
Import ListNotations.

Definition gen (F : nat -> nat) (r : nat -> R) (psi : state) : state := fun I => (RtoC (r I) * psi (F I))%C.
Definition rot (F : nat -> nat) (r : nat -> R) (psi : state) : state := fun I => (RtoC (cos (r I)) * psi I + RtoC (sin (r I)) * psi (F I))%C.
Definition odd_under (F : nat -> nat) (r : nat -> R) : Prop := forall I, r (F I) = (- r I)%R.
Section TwoLevel.
  Variable F : nat -> nat.
  Hypothesis FF : forall I, F (F I) = I.
  Lemma rot_rot r r' psi I : odd_under F r -> rot F r' (rot F r psi) I = rot F (fun I => (r I + r' I)%R) psi I.
  Proof.
    intros H. unfold rot. rewrite (H I), FF, cos_neg, sin_neg, cos_plus, sin_plus. apply C_ext; cbn; ring.
  Qed.
  Lemma rot_zero psi I : rot F (fun _ => 0%R) psi I = psi I.
  Proof. unfold rot. rewrite cos_0, sin_0. apply C_ext; cbn; ring. Qed.
  Lemma rot_ext r r' psi I : r I = r' I -> rot F r psi I = rot F r' psi I.
  Proof. intros E. unfold rot. now rewrite E. Qed.
  (** the exponential at one basis state *)
  Section Point.
    Variables (r : nat -> R) (I : nat).
    Hypothesis Odd : r (F I) = (- r I)%R.
    Let P (psi : state) : state := fun J => if Nat.eqb J I then (mkC 0 (-1) * psi (F I))%C else if Nat.eqb J (F I) then (mkC 0 1 * psi I)%C else psi J.
    Lemma pair_ext a b : a == b -> P a == P b.
    Proof. intros H J. unfold P. now rewrite !H. Qed.
    Lemma pair_invol (N : F I <> I) a : P (P a) == a.
    Proof.
      intros J. unfold P. rewrite !Nat.eqb_refl. rewrite (proj2 (Nat.eqb_neq (F I) I) N).
      destruct (Nat.eqb_spec J I) as [->|N1]; [apply C_ext; cbn; ring|]. destruct (Nat.eqb_spec J (F I)) as [->|N2]; [apply C_ext; cbn; ring|reflexivity].
    Qed.
    Lemma pair_iter (N : F I <> I) s psi k : (Cpow (mkC 0 (s * r I)) k * Nat.iter k P psi I = Cpow (RtoC s) k * Nat.iter k (gen F r) psi I)%C /\
      (Cpow (mkC 0 (s * r I)) k * Nat.iter k P psi (F I) = Cpow (RtoC s) k * Nat.iter k (gen F r) psi (F I))%C.
    Proof.
      induction k as [|k (IH1 & IH2)]; [split; reflexivity|]. cbn [Cpow Nat.iter nat_rect]. change (nat_rect (fun _ => state) psi (fun _ => P) k) with (Nat.iter k P psi). change (nat_rect (fun _ => state) psi (fun _ => gen F r) k) with (Nat.iter k (gen F r) psi).
      unfold P at 1 3, gen at 1 3. rewrite Nat.eqb_refl, (proj2 (Nat.eqb_neq (F I) I) N), Nat.eqb_refl, FF. set (u := Cpow (mkC 0 (s * r I)) k) in *. set (v := Cpow (RtoC s) k) in *. split.
      - transitivity (mkC 0 (s * r I) * mkC 0 (-1) * (u * Nat.iter k P psi (F I)))%C; [ring|]. rewrite IH2. transitivity (RtoC s * RtoC (r I) * (v * Nat.iter k (gen F r) psi (F I)))%C; [|ring]. f_equal. apply C_ext; cbn; ring.
      - transitivity (mkC 0 (s * r I) * mkC 0 1 * (u * Nat.iter k P psi I))%C; [ring|]. rewrite IH1, Odd. transitivity (RtoC s * RtoC (- r I) * (v * Nat.iter k (gen F r) psi I))%C; [|ring]. f_equal. apply C_ext; cbn; ring.
    Qed.
    Lemma gen_exp_at s psi : Un_cv (fun n => Re (exp_partial (RtoC s) (gen F r) psi I n)) (Re (rot F (fun J => (s * r J)%R) psi I)) /\
                             Un_cv (fun n => Im (exp_partial (RtoC s) (gen F r) psi I n)) (Im (rot F (fun J => (s * r J)%R) psi I)).
    Proof.
      destruct (Nat.eq_dec (F I) I) as [E|N].
      - assert (Z : r I = 0%R) by (rewrite E in Odd; lra).
        assert (EP : forall n, exp_partial (RtoC s) (gen F r) psi I n = psi I).
        { induction n as [|n IH]; [unfold exp_partial; cbn [seq]; rewrite Csum_cons, Csum_nil; cbn [Cpow fact INR Nat.iter nat_rect]; apply C_ext; cbn; field|]. rewrite partial_S, IH. cbn [Nat.iter nat_rect]. unfold gen at 1. rewrite Z. apply C_ext; cbn; ring. }
        unfold rot. rewrite Z, Rmult_0_r, cos_0, sin_0. replace (RtoC 1 * psi I + RtoC 0 * psi (F I))%C with (psi I) by (apply C_ext; cbn; ring).
        split; apply (Un_cv_ext (fun _ => _)) with (1 := fun n => f_equal _ (eq_sym (EP n))); apply cv_const.
      - destruct (euler_is_exp P psi (s * r I) pair_ext (pair_invol N) I) as (H1 & H2).
        assert (EP : forall n, exp_partial (mkC 0 (s * r I)) P psi I n = exp_partial (RtoC s) (gen F r) psi I n).
        { intros n. unfold exp_partial. apply Csum_ext. intros k _. destruct (pair_iter N s psi k) as (K & _). set (u := RtoC (/ INR (fact k))). set (a := Cpow (RtoC s) k) in *. set (b := Cpow (mkC 0 (s * r I)) k) in *.
          transitivity (u * (b * Nat.iter k P psi I))%C; [ring|]. rewrite K. ring. }
        assert (EV : euler (s * r I) P psi I = rot F (fun J => (s * r J)%R) psi I).
        { unfold euler, rot, sadd, sscale, P. rewrite Nat.eqb_refl. apply C_ext; cbn; ring. }
        rewrite <- EV. split; [eapply Un_cv_ext; [|exact H1] | eapply Un_cv_ext; [|exact H2]]; intros n; cbn beta; now rewrite EP.
    Qed.
  End Point.
  Lemma gen_exp r s psi : odd_under F r -> is_exp (RtoC s) (gen F r) psi (rot F (fun J => (s * r J)%R) psi).
  Proof. intros H I. apply gen_exp_at, H. Qed.
  Lemma gen_exp_unique r s psi phi : odd_under F r -> is_exp (RtoC s) (gen F r) psi phi -> phi == rot F (fun J => (s * r J)%R) psi.
  Proof.
    intros H E I. destruct (E I) as (H1 & H2), (gen_exp r s psi H I) as (H3 & H4). apply C_ext; eapply UL_sequence; eassumption.
  Qed.
  (** a product of exponentials of such generators with the same F is the exponential of the sum *)
  Lemma rots_product l : Forall (odd_under F) l -> forall psi phi, exp_product (map (fun r => (C1, gen F r)) l) psi phi -> phi == rot F (fun I => fold_right (fun r a => (r I + a)%R) 0%R l) psi.
  Proof.
    induction 1 as [|r l Hr Hl IH]; intros psi phi E; cbn [map exp_product fold_right] in *.
    - intros I. rewrite rot_zero. apply E.
    - destruct E as (chi & E1 & E2). apply (gen_exp_unique r 1 psi chi Hr) in E1. specialize (IH chi phi E2). intros I. rewrite (IH I).
      replace chi with (rot F (fun J => (1 * r J)%R) psi) by (extensionality J; symmetry; apply E1). rewrite rot_rot by (intros J; rewrite Hr; ring). apply rot_ext. ring.
  Qed.
End TwoLevel.
