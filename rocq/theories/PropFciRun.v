(** C93 for complete runs with a scipy optimizer: the energy variance of the final state is the
    objective the optimizer reports, and it is not larger than that of the reference. *)
From Coq Require Import Reals String List Arith ZArith NArith Bool Lia Lra.
From Verif Require Import CBase Result Bits Spec OpSpec GateModel ComputerModel LibProofs OperatorModel MeasureModel SQSpec SQModel SQPoolSpec SQPoolModel RealOps PyModel ExpSpec AnsatzModel AnsatzProofs SpinSpec SymmSums SectorProofs SectorPools FermiProofs ResModel RunModel GradModel GradSpec GradCalc QkProofs GradProofs GradAnsatz PropAnsatz PropOperator PropSQ PropMeasure PropGrad PropRes PropSpin RunProofs PropRun PropPqe PropFci PropFciMol.
From Verif Require Import SparseNorm.
From Verif Require PauliProofs PenProofs MomentProofs PropPqeEigen PointModel StateProofs MolModel.
Import ListNotations.
Local Open Scope nat_scope.

Lemma residuals_unique s n ts rs rs' : Residuals s n ts rs -> Residuals s n ts rs' -> rs = rs'.
Proof.
  intros (D & RD & LD & F) (D' & RD' & LD' & F'). assert (D = D') as <-. { rewrite RD in RD'. apply (f_equal (fun f => f D)) in RD'. unfold ket in RD'. rewrite Nat.eqb_refl in RD'. destruct (Nat.eqb_spec D D'); [assumption|]. apply (f_equal Re) in RD'. cbn in RD'. lra. }
  clear - F F'. revert rs' F'. induction F as [|e r pl rs HP F IH]; intros rs' F'; inversion F' as [|? r' ? rs1 HP' F1 E1 E2]; subst; [reflexivity|]. f_equal; [|now apply IH].
  destruct HP as (a & b & A & B & ->), HP' as (a' & b' & A' & B' & ->). rewrite (state_eq _ _ (exp_product_unique _ _ _ _ A' A)), (state_eq _ _ (exp_product_unique _ _ _ _ B' B)). reflexivity.
Qed.
Lemma zero_factors s : Forall (fun x => fst x = C0) (pqe_factors s (repeat 0%R (length (pool s)))).
Proof. pose proof (factors_zero (qubit_excitations s) (pool s) (seq 0 (length (pool s)))) as G. rewrite seq_length in G. unfold pqe_factors. cbv zeta. destruct (compact s); [exact G|]. now apply steps_zero. Qed.
(** the energy variance of a state with the mean energy e *)
Definition variance (n : nat) (H : state -> state) (psi : state) : R := normsq n (fun I => H psi I - RtoC (energy n H psi) * psi I)%C.

Lemma reference_variance srt o s m R irr max ts rs : legal_sort srt -> FullPool srt o s m R irr max -> SectorProblem o s m R irr -> Admissible s (2 * m) ts -> Residuals s (2 * m) (repeat 0%R (length (pool s))) rs ->
  variance (2 * m) (op_act (ham s)) (reference s) = square_norm rs.
Proof.
  intros HS HP HSP HA HR. destruct (C93_variance_partial srt o s m R irr max _ rs HS HP HSP (admissible_zero _ _ _ HA) HR) as (phi & E & X1 & X2 & X3 & _ & V). assert (phi = reference s) as -> by (apply state_eq; exact (product_zero _ (zero_factors s) _ _ X1)). unfold variance. now rewrite <- X3.
Qed.
(** optimizers that return a point with its value, and never a point with a larger value than the
    initial one: the final state phi, with energy Egs, has the variance |residuals|^2, and this is
    at most the variance of the reference determinant; an eigenvalue lambda of H is closer to Egs
    than the root of that variance divided by the overlap of phi with the eigenvector *)
Theorem C93_optimizer_run_partial : forall srt L o s m R irreps max r, legal_sort srt -> FullPool srt o s m R irreps max -> SectorProblem o s m R irreps ->
  LegalLibraries L (2 * m) (ham s) -> ReturnsAPoint (minimize L) -> NeverWorse (minimize L) -> PointModel.lower (optimizer o) <> "jacobi"%string -> (noise_factor o <= 1e-12)%R ->
  Forall (fun t => Nat.even (count_Y (snd t)) = true) (ham s) -> pqe_run L o s = Ok r -> Admissible s (2 * m) (final_tamps r) ->
  exists phi rs, exp_product (pqe_factors s (final_tamps r)) (reference s) phi /\ inner (2 * m) phi phi = C1 /\ Egs r = energy (2 * m) (op_act (ham s)) phi /\
    Residuals s (2 * m) (final_tamps r) rs /\ variance (2 * m) (op_act (ham s)) phi = square_norm rs /\
    (variance (2 * m) (op_act (ham s)) phi <= variance (2 * m) (op_act (ham s)) (reference s))%R /\
    forall chi lambda, inner (2 * m) chi chi = C1 -> (forall I, I < 2 ^ (2 * m) -> op_act (ham s) chi I = (RtoC lambda * chi I)%C) ->
      (Rabs (Egs r - lambda) * Cabs (inner (2 * m) chi phi) <= sqrt (variance (2 * m) (op_act (ham s)) (reference s)))%R.
Proof.
  intros srt L o s m R irr max r HS HP HSP HL HM HW HJ HN HY ER HA. destruct (full_object _ _ _ _ _ _ _ HS HP (proj1 HSP)) as (HO & _). destruct (full_pool_facts _ _ _ _ _ _ _ HS HP) as (LR & _). rewrite <- LR in HL, HA.
  destruct (C88_pqe_energy_partial L o s r HL HO (or_introl HM) ER) as (_ & GE). destruct (GE HA) as ((phi & X1 & X2 & X3) & _). destruct (C88_residuals_not_worse_partial L o s r HL HO HM HW HJ HN ER HA) as (rs0 & rs & R0 & R1 & GW).
  destruct (pqe_setup L o s HL HO) as (D0 & pl0 & dt0 & _ & _ & _ & _ & _ & _ & _ & GR). destruct (GR _ (admissible_zero _ _ _ HA)) as (rs0' & R0' & HY0 & _). rewrite <- (residuals_unique _ _ _ _ _ R0 R0') in HY0. specialize (GW (HY0 HY)). rewrite LR in *.
  destruct (C93_variance_partial srt o s m R irr max _ rs HS HP HSP HA R1) as (phi' & E & Y1 & _ & Y3 & _ & V). assert (phi' = phi) as -> by (apply state_eq; exact (exp_product_unique _ _ _ _ Y1 X1)).
  assert (V1 : variance (2 * m) (op_act (ham s)) phi = square_norm rs) by (unfold variance; now rewrite <- Y3). assert (V2 : (variance (2 * m) (op_act (ham s)) phi <= variance (2 * m) (op_act (ham s)) (reference s))%R) by (rewrite V1, (reference_variance srt o s m R irr max _ rs0 HS HP HSP HA R0); exact GW).
  exists phi, rs. split; [exact X1|]. split; [exact X2|]. split; [exact X3|]. split; [exact R1|]. split; [exact V1|]. split; [exact V2|].
  intros chi lam Hchi HE. eapply Rle_trans; [|apply sqrt_le_1_alt; exact V2]. rewrite X3. unfold variance. apply (eigen_overlap (2 * m) (op_act (ham s))); [|exact Hchi|exact HE]. intros a b. apply (PenProofs.ham_hermitian (2 * m) (ham s)); [apply HSP|lia].
Qed.
Print Assumptions C93_optimizer_run_partial.

(** ---- non-vacuity: the example of C93 with an optimizer that compares two points ---- *)
Definition optimizer_options_example : run_options := mkRun "BFGS" true (1/100000) (1/100000) 50 0 8 true false "occupation_list" [1; 1; 0; 0] (StateProofs.xgates 0 [1; 1; 0; 0]) (Some [RtoC (-2); RtoC (-2); RtoC 1; RtoC 1]%R) 1.
Definition optimizer_libraries_example (k : nat) : libraries := mkLib (two_points (repeat 1%R k)) (fun _ _ _ _ => 0%R) (fun _ m _ => m) None PropSQ.isort tsort.
Example C93_optimizer_nonvacuous : exists pl r, let s := full_object_example pl in let o := optimizer_options_example in let L := optimizer_libraries_example (length pl) in
  FullPool PropSQ.isort o s 2 3 [] 2 /\ SectorProblem o s 2 3 [] /\ LegalLibraries L (2 * 2) (ham s) /\ ReturnsAPoint (minimize L) /\ NeverWorse (minimize L) /\
  Forall (fun t => Nat.even (count_Y (snd t)) = true) (ham s) /\ pqe_run L o s = Ok r /\ Admissible s (2 * 2) (final_tamps r).
Proof.
  destruct C93_nonvacuous as (pl & HP & HSP & _ & HA & _). exists pl. set (s := full_object_example pl) in *. set (o := optimizer_options_example). set (L := optimizer_libraries_example (length pl)).
  assert (HP' : FullPool PropSQ.isort o s 2 3 [] 2) by exact HP. assert (HSP' : SectorProblem o s 2 3 []) by exact HSP. destruct (full_object _ _ _ _ _ _ _ PropSQ.isort_legal HP' (proj1 HSP')) as (HO & _).
  assert (HL : LegalLibraries L (2 * 2) (ham s)) by (split; [exact PropSQ.isort_legal|split; [exact tsort_legal|exact Logic.I]]). assert (HY : Forall (fun t => Nat.even (count_Y (snd t)) = true) (ham s)) by (repeat constructor).
  pose proof (admissible_zero _ _ _ HA) as H0. change (length (pool s)) with (length pl) in H0. destruct (two_points_legal (repeat 1%R (length pl))) as (M1 & M2).
  destruct (C88_run_succeeds_partial L o s HL HO eq_refl eq_refl ltac:(discriminate)) as (f & Hf & HR); [cbn; tauto|exact H0|].
  assert (V : forall ts, Admissible s 4 ts -> exists v, f ts = Ok v). { intros ts Ht. destruct (Hf ts Ht) as (rs & _ & G1 & G2); [cbn; lra|]. exists (square_norm rs). apply G1, G2, HY. }
  destruct (V _ H0) as (a & Ea). destruct (V _ HA) as (b & Eb).
  assert (EM : exists q, minimize L (optimizer o) (pqe_opts o) f None (repeat 0%R (length pl)) = Ok q /\ Admissible s 4 (opt_x q)).
  { cbn [minimize L optimizer_libraries_example]. unfold two_points. rewrite Ea. cbn [bind]. rewrite !repeat_length, Nat.eqb_refl, Eb. cbn [bind]. destruct (Rltb b a); eexists; (split; [reflexivity|]); assumption. }
  destruct EM as (q & EM & HQ). destruct (HR q EM HQ) as (r & ER & EX & _). exists r. cbv zeta. split; [exact HP'|]. split; [exact HSP'|]. split; [exact HL|]. split; [exact M1|]. split; [exact M2|]. split; [exact HY|]. split; [exact ER|]. now rewrite EX.
Qed.
