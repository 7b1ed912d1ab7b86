(** Molecules read from a file. *)
From Coq Require Import Reals String List Arith Bool Lia Lra Permutation.
From Verif Require Import CBase Result Bits Spec OpSpec SQSpec LibProofs SafeProofs OperatorModel SQModel SQProofs FermiProofs SpinOps RealOps FermiIndep FermiHerm PropSQ MolModel MolSpec MolProofs MolFrozen MolCore MolEnergy MolHerm.
Import ListNotations.
Local Open Scope C_scope.

Definition oei_terms (oei : list (nat * nat * R)) : list fterm := map (fun t => let '(p, q, x) := t in ((RtoC x, [p]), [q])) oei.
Definition tei_terms (tei : list (nat * nat * nat * nat * R)) : list fterm := map (fun t => let '(p, q, r, s, x) := t in ((RtoC (x / 4), [p; q]), [s; r])) tei.
Lemma external_eq e oei tei : external_sq e oei tei = (((RtoC e, []), []) :: oei_terms oei ++ tei_terms tei)%list.
Proof.
  unfold external_sq. cbv zeta.
  assert (FM : forall A (f : A -> fterm) (F : list fterm -> A -> list fterm), (forall H x, F H x = (H ++ [f x])%list) -> forall l H, fold_left F l H = (H ++ map f l)%list) by (intros A f F HF l; induction l as [|x l IH]; intros H; cbn [fold_left map]; [now rewrite app_nil_r|rewrite HF, IH, <- app_assoc; reflexivity]).
  unfold oei_terms, tei_terms. etransitivity; [apply (FM _ (fun t => let '(p, q, r, s, x) := t in ((RtoC (x / 4), [p; q]), [s; r]))); intros H [[[[p q] r] s] x]; reflexivity|].
  rewrite (FM _ (fun t => let '(p, q, x) := t in ((RtoC x, [p]), [q]))) by (intros H [[p q] x]; reflexivity). reflexivity.
Qed.
Lemma external_act e oei tei psi : fermi_act (external_sq e oei tei) psi == fun I => RtoC e * psi I
  + Csum (fun t => let '(p, q, x) := t in RtoC x * hop p q psi I) oei + Csum (fun t => let '(p, q, r, s, x) := t in RtoC (x / 4) * scatter p q s r psi I) tei.
Proof.
  intros I. rewrite external_eq. unfold fermi_act. rewrite Csum_cons, Csum_app. unfold oei_terms, tei_terms. rewrite !Csum_map. unfold fcoef at 1, fcre at 1, fann at 1. cbn [fst snd]. unfold ladder_act at 1. cbn [fold_right].
  rewrite (Csum_ext _ (fun t => let '(p, q, x) := t in RtoC x * hop p q psi I) oei) by (intros [[p q] x] _; reflexivity). rewrite (Csum_ext _ (fun t => let '(p, q, r, s, x) := t in RtoC (x / 4) * scatter p q s r psi I) tei) by (intros [[[[p q] r] s] x] _; reflexivity). ring.
Qed.
(** the tables are symmetric *)
Definition swap1 (t : nat * nat * R) : nat * nat * R := let '(p, q, x) := t in (q, p, x).
Definition swap2 (t : nat * nat * nat * nat * R) : nat * nat * nat * nat * R := let '(p, q, r, s, x) := t in (r, s, p, q, x).
Lemma external_hermitian e oei tei n : Permutation (map swap1 oei) oei -> Permutation (map swap2 tei) tei ->
  Forall (fun t => let '(p, q, _) := t in (p < n /\ q < n)%nat) oei -> Forall (fun t => let '(p, q, r, s, _) := t in (p < n /\ q < n /\ r < n /\ s < n)%nat) tei -> hermitian_map n (fermi_act (external_sq e oei tei)).
Proof.
  intros P1 P2 W1 W2 N a b L. rewrite (inner_ext N a a _ _ (seq_refl a) (external_act e oei tei b)), (inner_ext N _ _ b b (external_act e oei tei a) (seq_refl b)), (inner_conj N _ b).
  assert (EX : forall x y, inner N x (fun I => RtoC e * y I + Csum (fun t => let '(p, q, x) := t in RtoC x * hop p q y I) oei + Csum (fun t => let '(p, q, r, s, x) := t in RtoC (x / 4) * scatter p q s r y I) tei)
    = RtoC e * inner N x y + Csum (fun t => let '(p, q, z) := t in RtoC z * inner N x (hop p q y)) oei + Csum (fun t => let '(p, q, r, s, z) := t in RtoC (z / 4) * inner N x (scatter p q s r y)) tei).
  { intros x y. unfold inner. rewrite (Csum_ext _ (fun I => (RtoC e * (Cconj (x I) * y I) + Csum (fun t => let '(p, q, z) := t in RtoC z * (Cconj (x I) * hop p q y I)) oei) + Csum (fun t => let '(p, q, r, s, z) := t in RtoC (z / 4) * (Cconj (x I) * scatter p q s r y I)) tei)).
    - rewrite !Csum_add, Csum_mul_l. f_equal; [f_equal|].
      + rewrite Csum_swap. apply Csum_ext. intros [[p q] z] _. apply Csum_mul_l.
      + rewrite Csum_swap. apply Csum_ext. intros [[[[p q] r] s] z] _. apply Csum_mul_l.
    - intros I _. transitivity (Cconj (x I) * (RtoC e * y I) + Cconj (x I) * Csum (fun t => let '(p, q, z) := t in RtoC z * hop p q y I) oei + Cconj (x I) * Csum (fun t => let '(p, q, r, s, z) := t in RtoC (z / 4) * scatter p q s r y I) tei); [ring|]. f_equal; [f_equal|]; [ring| |]; rewrite <- Csum_mul_l; apply Csum_ext; [intros [[p q] z] _|intros [[[[p q] r] s] z] _]; ring. }
  rewrite !EX. assert (CA : forall x y, Cconj (x + y) = Cconj x + Cconj y) by (intros; apply C_ext; cbn; ring). rewrite !CA. f_equal; [f_equal|].
  - rewrite (inner_conj N a b). generalize (inner N b a). intros z. apply C_ext; cbn; ring.
  - rewrite Csum_conj. rewrite (Csum_perm _ _ _ (Permutation_sym P1)), Csum_map. apply Csum_ext. intros [[p q] z] Ht. cbn [swap1]. rewrite Forall_forall in W1. specialize (W1 _ Ht). cbn beta iota in W1. rewrite (hop_adj N q p a b) by lia. generalize (inner N b (hop p q a)). intros y. apply C_ext; cbn; ring.
  - rewrite Csum_conj. rewrite (Csum_perm _ _ _ (Permutation_sym P2)), Csum_map. apply Csum_ext. intros [[[[p q] r] s] z] Ht. cbn [swap2]. rewrite Forall_forall in W2. specialize (W2 _ Ht). cbn beta iota in W2.
    assert (SC : scatter r s q p b == scatter r s q p b) by apply seq_refl. rewrite (scatter_adj N r s q p a b) by lia. generalize (inner N b (scatter p q s r a)). intros y. apply C_ext; cbn; ring.
Qed.
