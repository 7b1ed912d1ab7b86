(** Matrix elements of the assembled Hamiltonian. *)
From Coq Require Import Reals String List Arith Bool Lia Lra Permutation.
From Verif Require Import CBase Result Bits Spec OpSpec SQSpec LibProofs SafeProofs OperatorModel SQModel SQProofs FermiProofs SpinOps MolModel MolSpec MolProofs MolFrozen MolCore.
Import ListNotations.
Local Open Scope C_scope.

Lemma electronic_inner m b h g a k : inner b a (electronic m h g k) =
  Csum (fun s => Csum (fun p => Csum (fun q => RtoC (h p q) * inner b a (hop (so p s) (so q s) k)) (seq 0 m)) (seq 0 m)) bits2 +
  Csum (fun p => Csum (fun r => Csum (fun s => Csum (fun q => Csum (fun x => Csum (fun y => RtoC (g p q r s / 2) * inner b a (scatter (so p x) (so r y) (so s y) (so q x) k)) bits2) bits2) (seq 0 m)) (seq 0 m)) (seq 0 m)) (seq 0 m).
Proof.
  unfold electronic. fold bits2. match goal with |- inner b a (fun I => ?x + ?y) = _ => idtac end.
  etransitivity; [apply (inner_add_r b a (fun I => _) (fun I => _))|]. f_equal.
  - rewrite inner_csum_r, (Csum_swap _ bits2). apply Csum_ext. intros p _. rewrite inner_csum_r, (Csum_swap _ bits2). apply Csum_ext. intros q _. rewrite inner_csum_r. apply Csum_ext. intros s _. apply (inner_scale_r b a).
  - rewrite inner_csum_r. apply Csum_ext. intros p _. rewrite inner_csum_r. apply Csum_ext. intros r _. rewrite inner_csum_r. apply Csum_ext. intros s _. rewrite inner_csum_r. apply Csum_ext. intros q _. rewrite inner_csum_r. apply Csum_ext. intros x _. rewrite inner_csum_r. apply Csum_ext. intros y _. apply (inner_scale_r b a).
Qed.
Lemma so_shift p a c : so (p + c) a = (so p a + 2 * c)%nat.
Proof. unfold so. lia. Qed.
Theorem frozen_inner e nmo c v h g phi psi : RealOrbitals h g -> (c + v <= nmo)%nat ->
  let na := (2 * (nmo - v - c))%nat in let W := with_core c na in
  inner (2 * nmo) (W phi) (sadd (sscale (RtoC e) (W psi)) (electronic nmo h g (W psi))) = inner na phi (fermi_act (mol_sq e nmo c v h g) psi).
Proof.
  intros [_ [_ [Sg Sy]]] Hcv na W. assert (Hn : (2 * c + na <= 2 * nmo)%nat) by (unfold na; lia).
  rewrite (inner_ext na phi phi _ _ (seq_refl _) (mol_sq_act e nmo c v h g psi Sg)). rewrite !inner_add_r, !inner_scale_r. rewrite !electronic_inner. unfold W. rewrite (core_inner c na _ phi psi Hn).
  pose proof (fun s (Hs : In s bits2) => one_sum c v nmo Hcv phi psi (fun p q => RtoC (h p q)) s (bits2_lt s Hs)) as E1. pose proof (two_sum c v nmo Hcv phi psi g Sy) as E2. cbv zeta in E1, E2. unfold G, M1, M2, M0 in E1, E2. fold na in E1, E2. rewrite (Csum_ext _ _ bits2 E1), E2. clear E1 E2. rewrite (core_inner c na _ phi psi Hn). rewrite Csum_add.
  replace (RtoC (e + core_energy c h g)) with (RtoC e + RtoC (core_energy c h g)) by (apply C_ext; cbn; ring). rewrite core_energy_sum. set (m0 := inner na phi psi).
  assert (L : forall p, In p (seq 0 (nmo - v - c)) -> (c <= p + c < nmo - v)%nat) by (intros p Hp; apply in_seq in Hp; lia).
  (* one-electron part *)
  assert (A1 : Csum (fun s => Csum (fun p => Csum (fun q => RtoC (dressed c c (nmo - v) h g (p + c)%nat (q + c)%nat) * inner na phi (hop (so p s) (so q s) psi)) (seq 0 (nmo - v - c))) (seq 0 (nmo - v - c))) bits2
    = Csum (fun s => Csum (fun p => Csum (fun q => RtoC (h p q) * inner (2 * nmo) (with_core c na phi) (hop (so p s) (so q s) (with_core c na psi))) (seq c (nmo - v - c))) (seq c (nmo - v - c))) bits2
    + Csum (fun s => Csum (fun p => Csum (fun q => Csum (fun i => RtoC (2 * g p q i i - g p i i q)) (seq 0 c) * inner (2 * nmo) (with_core c na phi) (hop (so p s) (so q s) (with_core c na psi))) (seq c (nmo - v - c))) (seq c (nmo - v - c))) bits2).
  { rewrite <- Csum_add. apply Csum_ext. intros s Hs. apply bits2_lt in Hs. rewrite <- Csum_add, (Csum_shift _ c). apply Csum_ext. intros p Hp. rewrite <- Csum_add, (Csum_shift _ c). apply Csum_ext. intros q Hq. rewrite dressed_sum by (apply L; assumption). rewrite !so_shift. apply in_seq in Hp, Hq.
    pose proof (M1_active c na (2 * nmo) Hn phi psi (so p s) (so q s) ltac:(unfold so, na; lia) ltac:(unfold so, na; lia)) as E. unfold M1 in E. rewrite E. ring. }
  rewrite A1. clear A1.
  assert (A2 : forall p r s q x y, In p (seq 0 (nmo - v - c)) -> In r (seq 0 (nmo - v - c)) -> In s (seq 0 (nmo - v - c)) -> In q (seq 0 (nmo - v - c)) -> In x bits2 -> In y bits2 ->
    inner (2 * nmo) (with_core c na phi) (scatter (so (p + c)%nat x) (so (r + c)%nat y) (so (s + c)%nat y) (so (q + c)%nat x) (with_core c na psi)) = inner na phi (scatter (so p x) (so r y) (so s y) (so q x) psi)).
  { intros p r s q x y Hp Hr Hs Hq Hx Hy. apply bits2_lt in Hx, Hy. apply in_seq in Hp, Hr, Hs, Hq. rewrite !so_shift. apply (M2_active c na (2 * nmo) Hn phi psi); unfold so, na; lia. }
  match goal with |- _ = _ + (_ + ?X) => assert (A3 : Csum (fun p => Csum (fun r => Csum (fun s => Csum (fun q => Csum (fun x => Csum (fun y => RtoC (g p q r s / 2) * inner (2 * nmo) (with_core c na phi) (scatter (so p x) (so r y) (so s y) (so q x) (with_core c na psi))) bits2) bits2) (seq c (nmo - v - c))) (seq c (nmo - v - c))) (seq c (nmo - v - c))) (seq c (nmo - v - c)) = X) end.
  { rewrite (Csum_shift _ c). apply Csum_ext. intros p Hp. rewrite (Csum_shift _ c). apply Csum_ext. intros r Hr. rewrite (Csum_shift _ c). apply Csum_ext. intros s Hs. rewrite (Csum_shift _ c). apply Csum_ext. intros q Hq. apply Csum_ext. intros x Hx. apply Csum_ext. intros y Hy. f_equal. now apply A2. }
  rewrite A3. clear A3 A2.
  assert (A4 : Csum (fun s => Csum (fun p => RtoC (h p p) * m0) (seq 0 c)) bits2 = Csum (fun i => RtoC (2 * h i i)) (seq 0 c) * m0).
  { unfold bits2. rewrite !Csum_cons, Csum_nil, Cadd_0_r, <- Csum_add, <- Csum_mul_r. apply Csum_ext. intros i _. apply C_ext; cbn; ring. }
  rewrite A4.
  assert (A5 : Csum (fun r => Csum (fun p => RtoC (2 * g p p r r - g p r r p) * m0) (seq 0 c)) (seq 0 c) = Csum (fun i => Csum (fun j => RtoC (2 * g i i j j - g i j j i)) (seq 0 c)) (seq 0 c) * m0).
  { rewrite Csum_swap, <- Csum_mul_r. apply Csum_ext. intros i _. apply Csum_mul_r. }
  rewrite A5. ring.
Qed.
