(** Molecular Hamiltonians. *)
From Coq Require Import Reals String List Arith Bool Lia Lra Permutation.
From Verif Require Import CBase Result Bits Spec OpSpec SQSpec OperatorModel SQModel SQProofs JWProofs FermiProofs SafeProofs PauliProofs MolModel MolSpec.
Import ListNotations.
Local Open Scope C_scope.

(** ---- the list of terms ---- *)
Lemma fold_append {A B} (f : list A -> B -> list A) (F : B -> list A) l : (forall H i, f H i = (H ++ F i)%list) -> forall H, fold_left f l H = (H ++ flat_map F l)%list.
Proof. intros HF. induction l as [|x l IH]; intros H; cbn [fold_left flat_map]; [now rewrite app_nil_r|]. now rewrite IH, HF, app_assoc. Qed.
Definition pair_terms (x : R) (p q r s : nat) : list fterm := add_pair x p q r s [].
Lemma add_pair_app x p q r s H : add_pair x p q r s H = (H ++ pair_terms x p q r s)%list.
Proof. unfold pair_terms, add_pair, sq_add_term. destruct (_ && _); cbn [app]; [reflexivity|now rewrite app_nil_r]. Qed.
Definition four (x : R) (i j k l : nat) : list fterm :=
  (pair_terms x (i * 2) (j * 2 + 1) (k * 2 + 1) (l * 2) ++ pair_terms x (i * 2 + 1) (j * 2) (k * 2) (l * 2 + 1) ++ pair_terms x (i * 2) (j * 2) (k * 2) (l * 2) ++ pair_terms x (i * 2 + 1) (j * 2 + 1) (k * 2 + 1) (l * 2 + 1))%list.
Lemma mol_sq_eq e nmo c v h g : let rng := seq c (nmo - v - c) in let h' := dressed c c (nmo - v) h g in
  mol_sq e nmo c v h g = (((RtoC (e + core_energy c h g), []), []) :: flat_map (fun i => flat_map (fun j =>
    [((RtoC (h' i j), [((i - c) * 2)%nat]), [((j - c) * 2)%nat]); ((RtoC (h' i j), [((i - c) * 2 + 1)%nat]), [((j - c) * 2 + 1)%nat])] ++
    flat_map (fun k => flat_map (fun l => four (g i l k j / 2) (i - c) (j - c) (k - c) (l - c)) rng) rng) rng) rng)%list.
Proof.
  intros rng h'. unfold mol_sq. fold rng. fold h'. cbv zeta. erewrite fold_append; [reflexivity|]. intros H i. cbv beta. apply fold_append. clear H. intros H j. cbv beta. erewrite fold_append.
  - unfold sq_add_term. rewrite <- !app_assoc. reflexivity.
  - clear H. intros H k. cbv beta. apply fold_append. clear H. intros H l. cbv beta. rewrite !add_pair_app, <- !app_assoc. reflexivity.
Qed.
Lemma Csum_flat {A B} (f : B -> C) (F : A -> list B) l : Csum f (flat_map F l) = Csum (fun x => Csum f (F x)) l.
Proof. induction l as [|x l IH]; [reflexivity|]. cbn [flat_map]. now rewrite Csum_app, Csum_cons, IH. Qed.
Lemma Csum_shift (f : nat -> C) c n : Csum f (seq c n) = Csum (fun i => f (i + c)%nat) (seq 0 n).
Proof.
  revert c f. induction n as [|n IH]; intros c f; [reflexivity|]. cbn [seq]. rewrite !Csum_cons, (IH (S c)), (IH 1%nat). f_equal. apply Csum_ext. intros i _. f_equal. lia.
Qed.
(** ---- anticommutation, as equations of states ---- *)
Lemma cre_anti p q psi : create p (create q psi) == sscale (- C1) (create q (create p psi)).
Proof. intros I. unfold sscale. rewrite (create_lad p _ I), (lad_ext true p _ _ (create_lad q psi) I), (create_lad q _ I), (lad_ext true q _ _ (create_lad p psi) I), lad_anti. ring. Qed.
Lemma ann_anti p q psi : annihilate p (annihilate q psi) == sscale (- C1) (annihilate q (annihilate p psi)).
Proof. intros I. unfold sscale. rewrite (annihilate_lad p _ I), (lad_ext false p _ _ (annihilate_lad q psi) I), (annihilate_lad q _ I), (lad_ext false q _ _ (annihilate_lad p psi) I), lad_anti. ring. Qed.
Lemma Cdouble (x : C) : x = - C1 * x -> x = C0.
Proof. intros H. pose proof (f_equal Re H) as H1. pose proof (f_equal Im H) as H2. cbn in H1, H2. apply C_ext; cbn; lra. Qed.
Lemma cre_same p psi : create p (create p psi) == szero.
Proof. intros I. apply Cdouble. exact (cre_anti p p psi I). Qed.
Lemma ann_same p psi : annihilate p (annihilate p psi) == szero.
Proof. intros I. apply Cdouble. exact (ann_anti p p psi I). Qed.
Lemma create_zero p : create p szero == szero.
Proof. intros I. unfold create, szero. destruct (bit I p); [ring|reflexivity]. Qed.
Lemma annihilate_zero p : annihilate p szero == szero.
Proof. intros I. unfold annihilate, szero. destruct (bit I p); [reflexivity|ring]. Qed.
Lemma mixed p q psi : create p (annihilate q psi) == sadd (if Nat.eqb p q then psi else szero) (sscale (- C1) (annihilate q (create p psi))).
Proof.
  intros I. pose proof (lad_anti_mixed p q psi I) as H. unfold sadd, sscale. replace (create p (annihilate q psi) I) with (create p (annihilate q psi) I + annihilate q (create p psi) I + - C1 * annihilate q (create p psi) I) by ring. rewrite H. destruct (Nat.eqb p q); reflexivity.
Qed.
Lemma scatter_same_cre p s q psi : scatter p p s q psi == szero.
Proof. unfold scatter. apply cre_same. Qed.
Lemma scatter_same_ann p r q psi : scatter p r q q psi == szero.
Proof. unfold scatter. intros I. rewrite (create_ext p _ szero) by (eapply seq_trans; [apply create_ext, ann_same|apply create_zero]). apply create_zero. Qed.
Lemma pair_act x p r s q psi I : fermi_act (pair_terms x p r s q) psi I = RtoC x * scatter p r s q psi I.
Proof.
  unfold pair_terms, add_pair, sq_add_term. destruct (Nat.eqb_spec p r) as [->|Hp]; cbn [negb andb].
  - unfold fermi_act. rewrite Csum_nil, (scatter_same_cre r s q psi I). unfold szero. ring.
  - destruct (Nat.eqb_spec s q) as [->|Hs]; cbn [negb andb].
    + unfold fermi_act. rewrite Csum_nil, (scatter_same_ann p r q psi I). unfold szero. ring.
    + unfold fermi_act. cbn [app]. rewrite Csum_cons, Csum_nil. unfold fcoef, fcre, fann. cbn [fst snd]. unfold ladder_act. cbn [fold_right]. unfold scatter. ring.
Qed.
Lemma four_act x i j k l psi I : fermi_act (four x i j k l) psi I = Csum (fun a => Csum (fun b => RtoC x * scatter (so i a) (so j b) (so k b) (so l a) psi I) [0; 1]%nat) [0; 1]%nat.
Proof.
  unfold four. rewrite !(fun a b => fermi_app a b psi I). unfold sadd. rewrite !(fun a b => fermi_app a b psi I). unfold sadd. rewrite !(fun a b => fermi_app a b psi I). unfold sadd. rewrite !pair_act, !Csum_cons, !Csum_nil. unfold so. rewrite !(Nat.mul_comm _ 2), !Nat.add_0_r. ring.
Qed.
Theorem mol_sq_act e nmo c v h g psi : (forall p q r s, g p q r s = g p q s r) -> let h' := dressed c c (nmo - v) h g in
  fermi_act (mol_sq e nmo c v h g) psi == sadd (sscale (RtoC (e + core_energy c h g)) psi) (electronic (nmo - v - c) (fun p q => h' (p + c) (q + c))%nat (fun p q r s => g (p + c) (q + c) (r + c) (s + c))%nat psi).
Proof.
  intros HG h' I. rewrite mol_sq_eq. fold h'. unfold fermi_act. rewrite Csum_cons. unfold fcoef at 1, fcre at 1, fann at 1. cbn [fst snd]. unfold ladder_act at 1. cbn [fold_right]. unfold sadd, sscale. f_equal.
  rewrite Csum_flat, Csum_shift. unfold electronic. rewrite <- Csum_add. apply Csum_ext. intros i _. rewrite Csum_flat, Csum_shift, <- Csum_add. apply Csum_ext. intros j _. rewrite Csum_app. f_equal.
  - rewrite !Csum_cons, !Csum_nil. unfold fcoef, fcre, fann. cbn [fst snd]. unfold ladder_act. cbn [fold_right]. unfold hop, so. rewrite !Nat.add_sub, !(Nat.mul_comm _ 2), !Nat.add_0_r. ring.
  - rewrite Csum_flat, Csum_shift. apply Csum_ext. intros k _. rewrite Csum_flat, Csum_shift. apply Csum_ext. intros l _.
    rewrite !Nat.add_sub. change (fermi_act (four (g (i + c)%nat (l + c)%nat (k + c)%nat (j + c)%nat / 2) i j k l) psi I = Csum (fun a => Csum (fun b => RtoC (g (i + c)%nat (l + c)%nat (j + c)%nat (k + c)%nat / 2) * scatter (so i a) (so j b) (so k b) (so l a) psi I) [0; 1]%nat) [0; 1]%nat). rewrite four_act, (HG (i + c)%nat (l + c)%nat (k + c)%nat (j + c)%nat). reflexivity.
Qed.
