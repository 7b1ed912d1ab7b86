(** The sa_SD pool: its operators. *)
From Coq Require Import Reals String List Arith NArith ZArith Bool Lia Lra Permutation Sorted.
From Verif Require Import CBase Result Bits Spec SQSpec OperatorModel SQModel SQPhase SQProofs SQPoolSpec SQPoolModel SQPoolProofs SQPoolOps FermiProofs GsdModel GsdProofs SaModel SaSpec SaFermi SaProofs.
Import ListNotations.
Local Open Scope nat_scope.

Lemma RtoC_neg c : RtoC (- c) = (- RtoC c)%C.
Proof. apply C_ext; cbn; ring. Qed.
Lemma RtoC_two c : RtoC (2 * c) = (RtoC c + RtoC c)%C.
Proof. apply C_ext; cbn; ring. Qed.
Lemma fermi_pair c p q r s o psi I : fermi_act (add_pair c p q r s o) psi I = (fermi_act o psi I + RtoC c * L4 p q r s psi I)%C.
Proof.
  unfold add_pair. destruct (Nat.eqb_spec p q) as [E|N1]; cbn [negb andb]; [rewrite (L4_zero p q) by (now left); unfold szero; ring|].
  destruct (Nat.eqb_spec r s) as [E|N2]; cbn [negb andb]; [rewrite (L4_zero p q) by (now right); unfold szero; ring|].
  unfold sq_add_term. rewrite (fermi_app o _ psi I). unfold sadd. f_equal. unfold fermi_act. rewrite Csum_cons, Csum_nil. unfold fcoef, fcre, fann. cbn [fst snd]. rewrite L4_word. ring.
Qed.
Lemma fermi_nil psi I : fermi_act [] psi I = C0.
Proof. reflexivity. Qed.
Lemma meaning_a i j a b psi : i <> a -> i <> b -> j <> a -> j <> b -> fermi_act (sa_double_a i j a b) psi = sscale (RtoC (- (1 / sqrt 12))) (singlet_minus i j a b psi).
Proof.
  intros N1 N2 N3 N4. apply eqs. intros I. unfold sa_double_a. cbv zeta. set (u := (1 / sqrt 12)%R). rewrite !fermi_pair, fermi_nil, !RtoC_neg, !RtoC_two.
  unfold sscale, singlet_minus, ssub. rewrite !transfer_two by congruence.
  rewrite (L4_swap_ann (2 * a) (2 * b) (2 * i) (2 * j)), (L4_swap_ann (2 * a) (2 * b + 1) (2 * i + 1) (2 * j)), (L4_swap_ann (2 * a + 1) (2 * b) (2 * i) (2 * j + 1)), (L4_swap_ann (2 * a + 1) (2 * b + 1) (2 * i + 1) (2 * j + 1)).
  rewrite (L4_swap_cre (2 * j) (2 * i) (2 * b) (2 * a)), (L4_swap_cre (2 * j + 1) (2 * i) (2 * b) (2 * a + 1)), (L4_swap_cre (2 * j) (2 * i + 1) (2 * b + 1) (2 * a)), (L4_swap_cre (2 * j + 1) (2 * i + 1) (2 * b + 1) (2 * a + 1)).
  ring.
Qed.
Lemma meaning_b i j a b psi : i <> a -> i <> b -> j <> a -> j <> b -> fermi_act (sa_double_b i j a b) psi = sscale (RtoC (- (1 / 2))) (singlet_plus i j a b psi).
Proof.
  intros N1 N2 N3 N4. apply eqs. intros I. unfold sa_double_b. cbv zeta. set (u := (1 / 2)%R). rewrite !fermi_pair, fermi_nil, !RtoC_neg.
  unfold sscale, singlet_plus, ssub, sadd. rewrite !transfer_two by congruence.
  rewrite (L4_swap_ann (2 * a) (2 * b) (2 * i) (2 * j)), (L4_swap_ann (2 * a) (2 * b + 1) (2 * i + 1) (2 * j)), (L4_swap_ann (2 * a + 1) (2 * b) (2 * i) (2 * j + 1)), (L4_swap_ann (2 * a + 1) (2 * b + 1) (2 * i + 1) (2 * j + 1)).
  rewrite (L4_swap_cre (2 * j) (2 * i) (2 * b) (2 * a)), (L4_swap_cre (2 * j + 1) (2 * i) (2 * b) (2 * a + 1)), (L4_swap_cre (2 * j) (2 * i + 1) (2 * b + 1) (2 * a)), (L4_swap_cre (2 * j + 1) (2 * i + 1) (2 * b + 1) (2 * a + 1)).
  ring.
Qed.
Lemma meaning_single i a psi : fermi_act (sa_single i a) psi = sscale (RtoC (1 / sqrt 2)) (singlet_single i a psi).
Proof.
  apply eqs. intros I. unfold sa_single. cbv zeta. set (h := (1 / sqrt 2)%R). unfold sq_add_term, fermi_act. cbn [app]. rewrite !Csum_cons, Csum_nil. unfold fcoef, fcre, fann, ladder_act. cbn [fst snd fold_right].
  rewrite !RtoC_neg. unfold sscale, singlet_single, ssub, transfer, sadd. ring.
Qed.

(** ---- hypotheses of the simplification lemma ---- *)
Lemma short_pair c p q r s o : Forall short o -> Forall short (add_pair c p q r s o).
Proof.
  intros F. unfold add_pair. destruct (Nat.eqb_spec p q); [exact F|]. destruct (Nat.eqb_spec r s); [exact F|]. cbn [negb andb]. unfold sq_add_term. apply Forall_app. split; [exact F|].
  constructor; [|constructor]. right. exists p, q, r, s. auto.
Qed.
Lemma quantum_pair u c p q r s o : Quantum u (RtoC c) -> Forall (fun t => Quantum u (fcoef t)) o -> Forall (fun t => Quantum u (fcoef t)) (add_pair c p q r s o).
Proof.
  intros Q F. unfold add_pair. destruct (negb _ && _); [|exact F]. unfold sq_add_term. apply Forall_app. split; [exact F|]. constructor; [exact Q|constructor].
Qed.
Lemma q1 u : Quantum u (RtoC u). Proof. exists 1%Z. apply C_ext; cbn; ring. Qed.
Lemma qm1 u : Quantum u (RtoC (- u)). Proof. exists (-1)%Z. apply C_ext; cbn; ring. Qed.
Lemma q2 u : Quantum u (RtoC (2 * u)). Proof. exists 2%Z. apply C_ext; cbn; ring. Qed.
Lemma qm2 u : Quantum u (RtoC (- (2 * u))). Proof. exists (-2)%Z. apply C_ext; cbn; ring. Qed.
Lemma u12 : (1e-12 < 1 / sqrt 12)%R.
Proof.
  assert (S : (0 < sqrt 12)%R) by (apply sqrt_lt_R0; lra). assert (L : (sqrt 12 <= 4)%R).
  { replace 4%R with (sqrt (4 * 4)) by (apply sqrt_square; lra). apply sqrt_le_1_alt. lra. }
  apply (Rmult_lt_reg_r (sqrt 12)); [exact S|]. replace (1 / sqrt 12 * sqrt 12)%R with 1%R by (field; lra). lra.
Qed.
Lemma u2 : (1e-12 < 1 / sqrt 2)%R.
Proof.
  assert (S : (0 < sqrt 2)%R) by (apply sqrt_lt_R0; lra). assert (L : (sqrt 2 <= 2)%R).
  { replace 2%R with (sqrt (2 * 2)) at 2 by (apply sqrt_square; lra). apply sqrt_le_1_alt. lra. }
  apply (Rmult_lt_reg_r (sqrt 2)); [exact S|]. replace (1 / sqrt 2 * sqrt 2)%R with 1%R by (field; lra). lra.
Qed.
Lemma hyp_a i j a b : Forall short (sa_double_a i j a b) /\ Forall (fun t => Quantum (1 / sqrt 12) (fcoef t)) (sa_double_a i j a b).
Proof.
  unfold sa_double_a. cbv zeta. split; [repeat apply short_pair; constructor|]. repeat (apply quantum_pair; [first [apply q1 | apply qm1 | apply q2 | apply qm2]|]). constructor.
Qed.
Lemma hyp_b i j a b : Forall short (sa_double_b i j a b) /\ Forall (fun t => Quantum (1 / 2) (fcoef t)) (sa_double_b i j a b).
Proof.
  unfold sa_double_b. cbv zeta. split; [repeat apply short_pair; constructor|]. repeat (apply quantum_pair; [first [apply q1 | apply qm1]|]). constructor.
Qed.

(** ---- which doubles are empty ---- *)
Lemma sumk_pair k c p q r s o : sumk k (map canon2 (add_pair c p q r s o)) =
  (sumk k (map canon2 o) + if negb (Nat.eqb p q) && negb (Nat.eqb r s) && keq (two p q, two r s) k then RtoC c * sgn (Nat.ltb p q) * sgn (Nat.ltb r s) else C0)%C.
Proof.
  unfold add_pair. destruct (negb (Nat.eqb p q) && negb (Nat.eqb r s)); cbn [andb]; [|ring]. unfold sq_add_term. rewrite map_app. unfold sumk. rewrite Csum_app. f_equal.
  cbn [map]. rewrite Csum_cons, Csum_nil. unfold canon2, fkey, fcre, fann, fcoef. cbn [fst snd]. destruct (keq _ _); ring.
Qed.
Lemma sumk_nil k : sumk k (map canon2 []) = C0.
Proof. reflexivity. Qed.
Lemma two_comm p q : two p q = two q p.
Proof. unfold two. destruct (Nat.ltb_spec q p), (Nat.ltb_spec p q); try lia; try reflexivity. assert (p = q) by lia. now subst. Qed.
Definition same2 (p q p' q' : nat) : bool := (Nat.eqb p p' && Nat.eqb q q') || (Nat.eqb p q' && Nat.eqb q p').
Lemma two_eq p q p' q' : two p q = two p' q' <-> same2 p q p' q' = true.
Proof.
  unfold same2. rewrite orb_true_iff, !andb_true_iff, !Nat.eqb_eq. split.
  - unfold two. destruct (Nat.ltb_spec q p), (Nat.ltb_spec q' p'); intros E; injection E; lia.
  - intros [(-> & ->)|(-> & ->)]; [reflexivity | apply two_comm].
Qed.
Lemma keq_two p q r s p' q' r' s' : keq (two p q, two r s) (two p' q', two r' s') = same2 p q p' q' && same2 r s r' s'.
Proof.
  destruct (keq_spec (two p q, two r s) (two p' q', two r' s')) as [E|N].
  - apply pair_equal_spec in E. destruct E as (E1 & E2). apply two_eq in E1, E2. now rewrite E1, E2.
  - destruct (same2 p q p' q' && same2 r s r' s') eqn:E; [|reflexivity]. exfalso. apply N. apply andb_prop in E. destruct E as (E1 & E2). apply two_eq in E1, E2. now rewrite E1, E2.
Qed.
Ltac decide_nat := repeat (match goal with
  | |- context [Nat.eqb ?a ?b] => let H := fresh in (destruct (Nat.eqb_spec a b) as [H|H]; [try (exfalso; lia)|try (exfalso; lia)]; clear H)
  | |- context [Nat.ltb ?a ?b] => let H := fresh in (destruct (Nat.ltb_spec a b) as [H|H]; [try (exfalso; lia)|try (exfalso; lia)]; clear H)
  end; cbn [andb orb negb]).
Lemma nonempty_a i j a b : i < j -> j < a -> a < b -> sumk (two (2 * a) (2 * b), two (2 * i) (2 * j)) (map canon2 (sa_double_a i j a b)) = RtoC (2 * (1 / sqrt 12)).
Proof.
  intros L1 L2 L3. unfold sa_double_a. cbv zeta. set (u := (1 / sqrt 12)%R). rewrite !sumk_pair, sumk_nil, !keq_two. unfold same2. decide_nat. unfold sgn. ring.
Qed.
Lemma nonempty_b i j a b : i <= j -> j < a -> a <= b -> exists n : nat, sumk (two (2 * a) (2 * b + 1), two (2 * i) (2 * j + 1)) (map canon2 (sa_double_b i j a b)) = RtoC (INR (S n) * (1 / 2)).
Proof.
  intros L1 L2 L3. unfold sa_double_b. cbv zeta. set (u := (1 / 2)%R). rewrite !sumk_pair, sumk_nil, !keq_two, !RtoC_neg. unfold same2.
  destruct (Nat.eq_dec i j) as [Eij|Nij], (Nat.eq_dec a b) as [Eab|Nab]; decide_nat; unfold sgn; [exists 3 | exists 1 | exists 1 | exists 0]; apply C_ext; cbn; ring.
Qed.
Lemma empty_a i j a b k : i <= j -> j < a -> a <= b -> i = j \/ a = b -> sumk k (map canon2 (sa_double_a i j a b)) = C0.
Proof.
  intros L1 L2 L3 [->| ->]; unfold sa_double_a; cbv zeta; set (u := (1 / sqrt 12)%R); rewrite !sumk_pair, sumk_nil, !RtoC_neg.
  - rewrite (two_comm (2 * j + 1) (2 * j)). 
    repeat match goal with |- context [keq ?x k] => let B := fresh "B" in set (B := keq x k) end. decide_nat.
    all: repeat match goal with |- context [if ?b then _ else _] => destruct b end; unfold sgn; ring.
  - rewrite (two_comm (2 * b + 1) (2 * b)).
    repeat match goal with |- context [keq ?x k] => let B := fresh "B" in set (B := keq x k) end. decide_nat.
    all: repeat match goal with |- context [if ?b then _ else _] => destruct b end; unfold sgn; ring.
Qed.
