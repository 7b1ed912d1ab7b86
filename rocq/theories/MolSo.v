(** Antisymmetrised spin orbital integrals give the same operator. *)
From Coq Require Import Reals String List Arith Bool Lia Lra Permutation.
From Verif Require Import CBase Result Bits Spec OpSpec SQSpec LibProofs SafeProofs OperatorModel SQModel SQProofs FermiProofs SpinOps MolModel MolSpec MolProofs MolFrozen MolCore MolEnergy MolExt.
From Verif Require PauliExp.
Import ListNotations.
Local Open Scope C_scope.

(** (PQ|RS) over spin orbitals 2p (alpha) and 2p + 1 (beta) *)
Definition chem (g : teis) (P Q R' S' : nat) : R := if (Nat.eqb (P mod 2) (Q mod 2) && Nat.eqb (R' mod 2) (S' mod 2))%bool then g (P / 2)%nat (Q / 2)%nat (R' / 2)%nat (S' / 2)%nat else 0%R.
(** <PQ||RS> *)
Definition anti (g : teis) (P Q R' S' : nat) : R := (chem g P R' Q S' - chem g P S' Q R')%R.
Definition one_so (h : oeis) (P Q : nat) : R := if Nat.eqb (P mod 2) (Q mod 2) then h (P / 2)%nat (Q / 2)%nat else 0%R.
Definition oei_table (m : nat) (h : oeis) : list (nat * nat * R) := flat_map (fun P => map (fun Q => (P, Q, one_so h P Q)) (seq 0 (2 * m))) (seq 0 (2 * m)).
Definition tei_table (m : nat) (g : teis) : list (nat * nat * nat * nat * R) :=
  flat_map (fun P => flat_map (fun Q => flat_map (fun R' => map (fun S' => (P, Q, R', S', anti g P Q R' S')) (seq 0 (2 * m))) (seq 0 (2 * m))) (seq 0 (2 * m))) (seq 0 (2 * m)).
Lemma so_div p a : (a < 2)%nat -> (so p a / 2 = p)%nat.
Proof. intros H. unfold so. rewrite Nat.mul_comm, Nat.add_comm, Nat.div_add by lia. rewrite Nat.div_small by lia. reflexivity. Qed.
Lemma so_mod p a : (a < 2)%nat -> (so p a mod 2 = a)%nat.
Proof. intros H. unfold so. rewrite Nat.mul_comm, Nat.add_comm, Nat.mod_add by lia. apply Nat.mod_small. lia. Qed.
Lemma Csum_spin (f : nat -> C) m : Csum f (seq 0 (2 * m)) = Csum (fun p => Csum (fun a => f (so p a)) bits2) (seq 0 m).
Proof. rewrite Nat.mul_comm, <- (PauliExp.Csum_blocks f m 2). apply Csum_ext. intros p _. unfold bits2. cbn [seq]. apply Csum_ext. intros a _. f_equal. unfold so. lia. Qed.
Theorem spin_tables e m h g psi : fermi_act (external_sq e (oei_table m h) (tei_table m g)) psi == sadd (sscale (RtoC e) psi) (electronic m h g psi).
Proof.
  intros I. rewrite (external_act e _ _ psi I). unfold sadd, sscale, electronic. match goal with |- ?a + ?b + ?c = _ => transitivity (a + (b + c)); [ring|] end. f_equal. f_equal.
  - unfold oei_table. rewrite Csum_flat, Csum_spin. apply Csum_ext. intros p _. fold bits2. rewrite (Csum_ext _ (fun a => Csum (fun q => RtoC (h p q) * hop (so p a) (so q a) psi I) (seq 0 m))); [apply Csum_swap|].
    intros a Ha. rewrite Csum_map, Csum_spin. apply Csum_ext. intros q _. unfold bits2 in Ha |- *. unfold one_so. rewrite !Csum_cons, Csum_nil. destruct Ha as [<-|[<-|[]]]; rewrite !so_div, !so_mod by lia; cbn [Nat.eqb]; apply C_ext; cbn; ring.
  - set (K := seq 0 (2 * m)). set (f := fun P Q R' S' => RtoC (chem g P R' Q S') * scatter P Q S' R' psi I).
    assert (A1 : Csum (fun t => let '(p, q, r, s, x) := t in RtoC (x / 4) * scatter p q s r psi I) (tei_table m g) = RtoC (1 / 2) * Csum (fun P => Csum (fun Q => Csum (fun R' => Csum (fun S' => f P Q R' S') K) K) K) K).
    { unfold tei_table. rewrite Csum_flat. fold K. rewrite <- Csum_mul_l. apply Csum_ext. intros P _. rewrite Csum_flat, <- Csum_mul_l. apply Csum_ext. intros Q _. rewrite Csum_flat.
      transitivity (RtoC (1 / 4) * Csum (fun R' => Csum (fun S' => f P Q R' S') K) K + RtoC (1 / 4) * Csum (fun R' => Csum (fun S' => f P Q S' R') K) K).
      - rewrite <- !Csum_mul_l, <- Csum_add. apply Csum_ext. intros R' _. rewrite Csum_map, <- !Csum_mul_l, <- Csum_add. apply Csum_ext. intros S' _. unfold f, anti.
        assert (SW : scatter P Q R' S' psi I = - C1 * scatter P Q S' R' psi I). { unfold scatter. rewrite (create_ext P _ _ (create_ext Q _ _ (ann_anti R' S' psi)) I), (create_ext P _ _ (create_scale Q (- C1) (annihilate S' (annihilate R' psi))) I), (create_scale P _ _ I). reflexivity. }
        rewrite SW. generalize (scatter P Q S' R' psi I). intros z. apply C_ext; cbn; field.
      - rewrite (Csum_swap (fun R' S' => f P Q S' R')). generalize (Csum (fun R' => Csum (fun S' => f P Q R' S') K) K). intros z. apply C_ext; cbn; field. }
    rewrite A1. unfold K. rewrite <- Csum_mul_l, Csum_spin. apply Csum_ext. intros p _. fold bits2.
    transitivity (Csum (fun a => Csum (fun r => Csum (fun b => Csum (fun q => Csum (fun s => RtoC (g p q r s / 2) * scatter (so p a) (so r b) (so s b) (so q a) psi I) (seq 0 m)) (seq 0 m)) bits2) (seq 0 m)) bits2).
    + apply Csum_ext. intros a Ha. apply bits2_lt in Ha as La. rewrite <- Csum_mul_l, Csum_spin. apply Csum_ext. intros r _. apply Csum_ext. intros b Hb. apply bits2_lt in Hb as Lb. rewrite <- Csum_mul_l, Csum_spin. apply Csum_ext. intros q _.
      transitivity (Csum (fun c => if Nat.eqb a c then RtoC (1 / 2) * Csum (fun S' => f (so p a) (so r b) (so q c) S') (seq 0 (2 * m)) else C0) bits2).
      { apply Csum_ext. intros c Hc. apply bits2_lt in Hc. destruct (Nat.eqb_spec a c); [reflexivity|]. rewrite Csum_zero; [ring|]. intros S' _. unfold f, chem. rewrite !so_mod by assumption. destruct (Nat.eqb_spec a c); [contradiction|]. cbn [andb]. apply C_ext; cbn; ring. }
      assert (X : forall F : nat -> C, Csum (fun c => if Nat.eqb a c then F c else C0) bits2 = F a) by (intros F; unfold bits2; rewrite !Csum_cons, Csum_nil; destruct a as [|[|a]]; [| |lia]; cbn [Nat.eqb]; ring).
      rewrite (X (fun c => RtoC (1 / 2) * Csum (fun S' => f (so p a) (so r b) (so q c) S') (seq 0 (2 * m)))). rewrite Csum_spin, <- Csum_mul_l. apply Csum_ext. intros s _. rewrite <- Csum_mul_l.
      assert (X' : forall F : nat -> C, Csum (fun c => if Nat.eqb b c then F c else C0) bits2 = F b) by (intros F; unfold bits2; rewrite !Csum_cons, Csum_nil; destruct b as [|[|b]]; [| |lia]; cbn [Nat.eqb]; ring).
      rewrite <- (X' (fun d => RtoC (g p q r s / 2) * scatter (so p a) (so r b) (so s d) (so q a) psi I)). apply Csum_ext. intros d Hd. apply bits2_lt in Hd. unfold f, chem. rewrite !so_mod, !so_div, Nat.eqb_refl by assumption. cbn [andb]. destruct (Nat.eqb b d); apply C_ext; cbn; field.
    + rewrite Csum_swap. apply Csum_ext. intros r _. rewrite (Csum_ext _ (fun a => Csum (fun s => Csum (fun q => Csum (fun b => RtoC (g p q r s / 2) * scatter (so p a) (so r b) (so s b) (so q a) psi I) bits2) (seq 0 m)) (seq 0 m))).
      * rewrite Csum_swap. apply Csum_ext. intros s _. apply Csum_swap.
      * intros a _. rewrite (Csum_ext _ (fun b => Csum (fun s => Csum (fun q => RtoC (g p q r s / 2) * scatter (so p a) (so r b) (so s b) (so q a) psi I) (seq 0 m)) (seq 0 m))) by (intros b _; apply Csum_swap). rewrite Csum_swap. apply Csum_ext. intros s _. apply Csum_swap.
Qed.
