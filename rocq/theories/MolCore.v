(** The frozen-core Hamiltonian is the restriction of the full one. *)
From Coq Require Import Reals String List Arith Bool Lia Lra Permutation.
From Verif Require Import CBase Result Bits Spec OpSpec SQSpec LibProofs SafeProofs OperatorModel SQModel SQProofs FermiProofs SpinOps MolModel MolSpec MolProofs MolFrozen.
From Verif Require SaFermi.
Import ListNotations.
Local Open Scope C_scope.

Lemma fold_sum (f : nat -> R) l : forall x, RtoC (fold_left (fun x i => (x + f i)%R) l x) = RtoC x + Csum (fun i => RtoC (f i)) l.
Proof. induction l as [|i l IH]; intros x; cbn [fold_left]; [rewrite Csum_nil; ring|]. rewrite IH, Csum_cons. apply C_ext; cbn; ring. Qed.
Lemma fold_sum2 (f : nat -> nat -> R) l1 l2 : forall x, RtoC (fold_left (fun e i => fold_left (fun e j => (e + f i j)%R) l2 e) l1 x) = RtoC x + Csum (fun i => Csum (fun j => RtoC (f i j)) l2) l1.
Proof. induction l1 as [|i l IH]; intros x; cbn [fold_left]; [rewrite Csum_nil; ring|]. rewrite IH, fold_sum, Csum_cons. ring. Qed.
Lemma core_energy_sum c h g : RtoC (core_energy c h g) = Csum (fun i => RtoC (2 * h i i)) (seq 0 c) + Csum (fun i => Csum (fun j => RtoC (2 * g i i j j - g i j j i)) (seq 0 c)) (seq 0 c).
Proof.
  unfold core_energy. destruct (Nat.ltb_spec 0 c).
  - rewrite fold_sum2, fold_sum. apply C_ext; cbn; ring.
  - replace c with 0%nat by lia. cbn [seq]. rewrite !Csum_nil. apply C_ext; cbn; ring.
Qed.
Lemma dressed_sum c lo hi h g p q : (lo <= p < hi)%nat -> (lo <= q < hi)%nat -> RtoC (dressed c lo hi h g p q) = RtoC (h p q) + Csum (fun i => RtoC (2 * g p q i i - g p i i q)) (seq 0 c).
Proof.
  intros Hp Hq. unfold dressed. replace (lo <=? p)%nat with true by (symmetry; apply Nat.leb_le; lia). replace (lo <=? q)%nat with true by (symmetry; apply Nat.leb_le; lia). replace (p <? hi)%nat with true by (symmetry; apply Nat.ltb_lt; lia). replace (q <? hi)%nat with true by (symmetry; apply Nat.ltb_lt; lia).
  cbn [andb]. rewrite !andb_true_r. destruct (Nat.ltb_spec 0 c).
  - apply fold_sum.
  - replace c with 0%nat by lia. cbn [seq]. rewrite Csum_nil. ring.
Qed.
Lemma so_eqb p q a b : (a < 2)%nat -> (b < 2)%nat -> Nat.eqb (so p a) (so q b) = (Nat.eqb p q && Nat.eqb a b)%bool.
Proof. intros Ha Hb. unfold so. destruct (Nat.eqb_spec p q), (Nat.eqb_spec a b), (Nat.eqb_spec (2 * p + a) (2 * q + b)); cbn [andb]; try reflexivity; lia. Qed.
Definition bits2 : list nat := [0; 1]%nat.
Lemma bits2_lt a : In a bits2 -> (a < 2)%nat.
Proof. unfold bits2. intros [H|[H|[]]]; lia. Qed.

Section alg.
Context (c v nmo : nat) (Hcv : (c + v <= nmo)%nat).
Let na := (2 * (nmo - v - c))%nat.
Let n := (2 * nmo)%nat.
Context (phi psi : state).
Let m0 := M0 c na n phi psi.
Let m1 := M1 c na n phi psi.
Let m2 := M2 c na n phi psi.
Let K := seq 0 c.
Let F := seq 0 nmo.
Let A := seq c (nmo - v - c).
Let Hn : (2 * c + na <= n)%nat.
Proof. unfold na, n. lia. Qed.
Lemma full_split (f : nat -> C) : (forall p, (nmo - v <= p < nmo)%nat -> f p = C0) -> Csum f F = Csum f K + Csum f A.
Proof.
  intros H. unfold F, K, A. replace nmo with (c + ((nmo - v - c) + v))%nat at 1 by lia. rewrite !seq_app, !Csum_app. rewrite (Csum_zero _ (seq _ v)); [cbn [Nat.add]; ring|]. intros p Hp. apply in_seq in Hp. apply H. lia.
Qed.
Lemma full_active (f : nat -> C) : (forall p, (nmo - v <= p < nmo)%nat -> f p = C0) -> (forall p, (p < c)%nat -> f p = C0) -> Csum f F = Csum f A.
Proof. intros H1 H2. rewrite full_split by exact H1. unfold K. rewrite (Csum_zero _ (seq 0 c)); [ring|]. intros p Hp. apply in_seq in Hp. apply H2. lia. Qed.
Lemma one_of (f : nat -> C) p : (p < nmo)%nat -> Csum (fun q => if Nat.eqb p q then f q else C0) F = f p.
Proof. intros Hp. unfold F. rewrite (SaFermi.Csum_one _ nmo p Hp); [now rewrite Nat.eqb_refl|]. intros k Hk. destruct (Nat.eqb_spec p k); [congruence|reflexivity]. Qed.

(** one-electron sums *)
Lemma one_sum (f : nat -> nat -> C) a : (a < 2)%nat ->
  Csum (fun p => Csum (fun q => f p q * m1 (so p a) (so q a)) F) F = Csum (fun p => f p p * m0) K + Csum (fun p => Csum (fun q => f p q * m1 (so p a) (so q a)) A) A.
Proof.
  intros Ha. assert (V : forall p q, (nmo - v <= p < nmo)%nat \/ (nmo - v <= q)%nat -> m1 (so p a) (so q a) = C0). { intros p q H. unfold m1. apply M1_virtual; unfold so, n, na; lia. }
  rewrite full_split.
  - f_equal.
    + apply Csum_ext. intros p Hp. apply in_seq in Hp. rewrite (Csum_ext _ (fun q => if Nat.eqb p q then f p q * m0 else C0)).
      * apply (one_of (fun q => f p q * m0)). lia.
      * intros q _. unfold m1. rewrite M1_core by (unfold so; lia). rewrite so_eqb, Nat.eqb_refl, andb_true_r by exact Ha. fold m0. destruct (Nat.eqb p q); ring.
    + apply Csum_ext. intros p Hp. apply in_seq in Hp. apply full_active.
      * intros q Hq. rewrite V by lia. ring.
      * intros q Hq. unfold m1. rewrite M1_mixed by (unfold so; unfold n, na; lia). ring.
  - intros p Hp. apply Csum_zero. intros q _. rewrite V by lia. ring.
Qed.
(** two-electron terms with a core creator *)
Lemma two_core (f : nat -> nat -> C) p r : (p < c)%nat -> (* f q s *)
  Csum (fun s => Csum (fun q => Csum (fun a => Csum (fun b => f q s * m2 (so p a) (so r b) (so s b) (so q a)) bits2) bits2) F) F =
  Csum (fun a => Csum (fun s => ((C1 + C1) * f p s - f s p) * m1 (so r a) (so s a)) F) bits2.
Proof.
  intros Hp.
  transitivity (Csum (fun s => Csum (fun q => if Nat.eqb p q then (C1 + C1) * f q s * (m1 (so r 0) (so s 0) + m1 (so r 1) (so s 1)) else C0) F) F
    + Csum (fun s => if Nat.eqb p s then Csum (fun q => - f q s * (m1 (so r 0) (so q 0) + m1 (so r 1) (so q 1))) F else C0) F).
  - rewrite <- Csum_add. apply Csum_ext. intros s _. transitivity (Csum (fun q => (if Nat.eqb p q then (C1 + C1) * f q s * (m1 (so r 0) (so s 0) + m1 (so r 1) (so s 1)) else C0) + (if Nat.eqb p s then - f q s * (m1 (so r 0) (so q 0) + m1 (so r 1) (so q 1)) else C0)) F).
    + apply Csum_ext. intros q _. unfold bits2. rewrite !Csum_cons, !Csum_nil. unfold m2. rewrite !M2_core by (unfold so; lia). rewrite !so_eqb by lia. fold m1. cbn [Nat.eqb]. rewrite !andb_true_r, !andb_false_r. destruct (Nat.eqb p q), (Nat.eqb p s); ring.
    + rewrite Csum_add. f_equal. destruct (Nat.eqb p s); [reflexivity|]. apply Csum_zero. reflexivity.
  - rewrite (Csum_ext _ (fun s => (C1 + C1) * f p s * (m1 (so r 0) (so s 0) + m1 (so r 1) (so s 1)))) by (intros s _; apply (one_of (fun q => (C1 + C1) * f q s * (m1 (so r 0) (so s 0) + m1 (so r 1) (so s 1)))); lia).
    rewrite (one_of (fun s => Csum (fun q => - f q s * (m1 (so r 0) (so q 0) + m1 (so r 1) (so q 1))) F)) by lia.
    rewrite <- Csum_add. unfold bits2. rewrite !Csum_cons, Csum_nil, Cadd_0_r, <- Csum_add. apply Csum_ext. intros s _. ring.
Qed.
Lemma two_core' (f : nat -> nat -> C) p r : (r < c)%nat -> (* f q s *)
  Csum (fun s => Csum (fun q => Csum (fun a => Csum (fun b => f q s * m2 (so p a) (so r b) (so s b) (so q a)) bits2) bits2) F) F =
  Csum (fun a => Csum (fun q => ((C1 + C1) * f q r - f r q) * m1 (so p a) (so q a)) F) bits2.
Proof.
  intros Hr. rewrite <- (two_core (fun s q => f q s) r p Hr). rewrite Csum_swap. apply Csum_ext. intros q _. apply Csum_ext. intros s _. rewrite Csum_swap. apply Csum_ext. intros b _. apply Csum_ext. intros a _. f_equal. apply M2_swap.
Qed.
Definition G (g : teis) (p r : nat) (X Y : list nat) : C := Csum (fun s => Csum (fun q => Csum (fun a => Csum (fun b => RtoC (g p q r s / 2) * m2 (so p a) (so r b) (so s b) (so q a)) bits2) bits2) Y) X.
Lemma G_virtual g p r X Y : (nmo - v <= p < nmo)%nat \/ (nmo - v <= r < nmo)%nat -> G g p r X Y = C0.
Proof. intros H. unfold G. apply Csum_zero. intros s _. apply Csum_zero. intros q _. apply Csum_zero. intros a Ha. apply bits2_lt in Ha. apply Csum_zero. intros b Hb. apply bits2_lt in Hb. unfold m2. rewrite M2_virtual by (unfold so, n, na; lia). ring. Qed.
Lemma G_active g p r : (c <= p)%nat -> (c <= r)%nat -> G g p r F F = G g p r A A.
Proof.
  intros Hp Hr. unfold G.
  assert (Z : forall s q a b, (a < 2)%nat -> (b < 2)%nat -> (s < c \/ nmo - v <= s)%nat \/ (q < c \/ nmo - v <= q)%nat -> m2 (so p a) (so r b) (so s b) (so q a) = C0).
  { intros s q a b Ha Hb H. unfold m2. destruct (Nat.lt_ge_cases s c); [apply M2_hole; unfold so; lia|]. destruct (Nat.lt_ge_cases q c); [apply M2_hole; unfold so; lia|]. apply M2_virtual; unfold so, n, na; lia. }
  assert (ZZ : forall s q, (s < c \/ nmo - v <= s)%nat \/ (q < c \/ nmo - v <= q)%nat -> Csum (fun a => Csum (fun b => RtoC (g p q r s / 2) * m2 (so p a) (so r b) (so s b) (so q a)) bits2) bits2 = C0).
  { intros s q H. apply Csum_zero. intros a Ha. apply bits2_lt in Ha. apply Csum_zero. intros b Hb. apply bits2_lt in Hb. rewrite Z by assumption. ring. }
  rewrite full_active; [apply Csum_ext; intros s _; apply full_active; intros q Hq; apply ZZ; lia| |]; intros s Hs; apply Csum_zero; intros q _; apply ZZ; lia.
Qed.
(** the whole two-electron sum *)
Lemma two_sum (g : teis) : (forall p q r s, g p q r s = g r s p q) ->
  Csum (fun p => Csum (fun r => G g p r F F) F) F =
  Csum (fun r => Csum (fun p => RtoC (2 * g p p r r - g p r r p) * m0) K) K
  + Csum (fun a => Csum (fun p => Csum (fun q => Csum (fun i => RtoC (2 * g p q i i - g p i i q)) K * m1 (so p a) (so q a)) A) A) bits2
  + Csum (fun p => Csum (fun r => G g p r A A) A) A.
Proof.
  intros Sy. set (w := fun p r s => RtoC (g p p r s - g p s r p / 2)).
  (* core creators first *)
  rewrite full_split by (intros p Hp; apply Csum_zero; intros r _; apply G_virtual; lia).
  assert (E1 : Csum (fun p => Csum (fun r => G g p r F F) F) K = Csum (fun a => Csum (fun r => Csum (fun s => Csum (fun p => w p r s) K * m1 (so r a) (so s a)) F) F) bits2).
  { transitivity (Csum (fun p => Csum (fun a => Csum (fun r => Csum (fun s => w p r s * m1 (so r a) (so s a)) F) F) bits2) K).
    - apply Csum_ext. intros p Hp. apply in_seq in Hp. rewrite Csum_swap. rewrite (Csum_ext _ (fun r => Csum (fun a => Csum (fun s => w p r s * m1 (so r a) (so s a)) F) bits2)).
      + rewrite Csum_swap. reflexivity.
      + intros r _. unfold G. rewrite (two_core (fun q s => RtoC (g p q r s / 2)) p r) by lia. apply Csum_ext. intros a _. apply Csum_ext. intros s _. f_equal. unfold w. apply C_ext; cbn; field.
    - rewrite Csum_swap. apply Csum_ext. intros a _. rewrite Csum_swap. apply Csum_ext. intros r _. rewrite Csum_swap. apply Csum_ext. intros s _. rewrite <- Csum_mul_r. reflexivity. }
  rewrite E1. rewrite (Csum_ext _ _ bits2 (fun a Ha => one_sum (fun r s => Csum (fun p => w p r s) K) a (bits2_lt a Ha))). rewrite Csum_add.
  assert (E2 : Csum (fun p => Csum (fun r => G g p r F F) F) A = Csum (fun a => Csum (fun p => Csum (fun q => Csum (fun i => w i p q) K * m1 (so p a) (so q a)) A) A) bits2 + Csum (fun p => Csum (fun r => G g p r A A) A) A).
  { rewrite (Csum_ext _ (fun p => Csum (fun a => Csum (fun q => Csum (fun i => w i p q) K * m1 (so p a) (so q a)) A) bits2 + Csum (fun r => G g p r A A) A)).
    - rewrite Csum_add. f_equal. apply Csum_swap.
    - intros p Hp. apply in_seq in Hp. rewrite full_split by (intros r Hr; apply G_virtual; lia). f_equal.
      + transitivity (Csum (fun r => Csum (fun a => Csum (fun q => w r p q * m1 (so p a) (so q a)) A) bits2) K).
        * apply Csum_ext. intros r Hr. apply in_seq in Hr. unfold G. rewrite (two_core' (fun q s => RtoC (g p q r s / 2)) p r) by lia. apply Csum_ext. intros a Ha. apply bits2_lt in Ha. rewrite full_active.
          -- apply Csum_ext. intros q _. f_equal. unfold w. rewrite (Sy r r p q), (Sy r q p r). apply C_ext; cbn; field.
          -- intros q Hq. unfold m1. rewrite M1_virtual by (unfold so, n, na; lia). ring.
          -- intros q Hq. unfold m1. rewrite M1_mixed by (unfold so, n, na; lia). ring.
        * rewrite Csum_swap. apply Csum_ext. intros a _. rewrite Csum_swap. apply Csum_ext. intros q _. rewrite <- Csum_mul_r. reflexivity.
      + apply Csum_ext. intros r Hr. apply in_seq in Hr. apply G_active; lia. }
  rewrite E2. set (D := Csum (fun p => Csum (fun r => G g p r A A) A) A).
  assert (E3 : Csum (fun x => Csum (fun p => Csum (fun p0 => w p0 p p) K * m0) K) bits2 = Csum (fun r => Csum (fun p => RtoC (2 * g p p r r - g p r r p) * m0) K) K).
  { unfold bits2. rewrite !Csum_cons, Csum_nil, Cadd_0_r, <- Csum_add. apply Csum_ext. intros r _. rewrite <- !Csum_mul_r, <- Csum_add. apply Csum_ext. intros p _. unfold w. apply C_ext; cbn; field. }
  rewrite E3.
  assert (E4 : Csum (fun a => Csum (fun p => Csum (fun q => Csum (fun i => RtoC (2 * g p q i i - g p i i q)) K * m1 (so p a) (so q a)) A) A) bits2 = Csum (fun a => Csum (fun p => Csum (fun q => Csum (fun i => w i p q) K * m1 (so p a) (so q a)) A) A) bits2 + Csum (fun a => Csum (fun p => Csum (fun q => Csum (fun i => w i p q) K * m1 (so p a) (so q a)) A) A) bits2).
  { rewrite <- Csum_add. apply Csum_ext. intros a _. rewrite <- Csum_add. apply Csum_ext. intros p _. rewrite <- Csum_add. apply Csum_ext. intros q _. rewrite <- !Csum_mul_r, <- !Csum_add. apply Csum_ext. intros i _. unfold w. rewrite (Sy i i p q), (Sy i q p i). apply C_ext; cbn; field. }
  rewrite E4. ring.
Qed.
End alg.
