(** C94: SPQE with a pool that reaches the whole symmetry sector: the squared residuals of all
    pool determinants add up to the energy variance. *)
From Coq Require Import Reals String List Arith ZArith NArith Bool Lia Lra Sorted Permutation.
From Verif Require Import CBase Result Bits Spec OpSpec GateModel ComputerModel SafeProofs LibProofs CleanProofs SimProofs CircuitModel OperatorModel MeasureModel MeasureProofs SQSpec SQModel SQPoolSpec SQPoolModel SQPoolOps PyModel PyApply CompactModel CompactAct CompactApply CompactProofs MomentModel MomentProofs PropMoment ExpSpec ExpProofs AnsatzSpec AnsatzModel AnsatzProofs FermiProofs QkProofs SpinSpec SymmSums SectorProofs SectorPools ResModel ResProofs RunModel GradModel GradSpec GradCalc GradProofs GradAnsatz SelectSpec SelectProofs SpqeLoop PropOperator PropMeasure PropPool PropAnsatz PropGrad PropRes PropSpin RunProofs PropRun PropSpqe PropSpqeRes SpqeRunModel SelectModel PropSpqeRun PropFci.
From Verif Require Import SparseNorm.
From Verif Require ExpCircuit ThreeQubit GateEval PauliProofs PenProofs QftProofs MomentSpace PropPqeEigen PropSector StateProofs QiteNorm MomentProofs PointModel SpqeProofs.
Import ListNotations.
Local Open Scope nat_scope.
Notation total := SelectSpec.total.

(** ---- the components of H phi - E phi on a sector, for a unitary that keeps the sector ---- *)
Section Sector.
Variables (n : nat) (h : qop) (U : list gate) (Same : nat -> nat -> Prop) (D : nat) (dets : list nat) (inS : nat -> bool).
Hypotheses (HH : Hamiltonian n h) (AU : Applicable n U) (LD : D < 2 ^ n).
Hypotheses (Refl : forall I, Same I I) (Trans : forall I J K, Same I J -> Same I K -> Same J K).
Hypothesis SP : forall J, Within (Same J) (circ_act U (ket J)).
Hypothesis HS' : forall I, inS I = true <-> Same D I.
Hypotheses (ND : NoDup dets) (Comp : forall J, In J dets -> J < 2 ^ n /\ J <> D /\ Same D J) (Comp' : forall J, J < 2 ^ n -> J <> D -> ~ In J dets -> ~ Same D J).
Let phi := circ_act U (ket D).
Let E := energy n (op_act h) phi.
Lemma sector_sum : Within (Same D) phi /\ inner n phi phi = C1 /\
  normsq n (restrict inS (fun I => op_act h phi I - RtoC E * phi I)%C) = Re (Csum (fun J => RtoC (Cabs (inner n (circ_act U (ket J)) (op_act h phi)) * Cabs (inner n (circ_act U (ket J)) (op_act h phi))))%R dets).
Proof.
  set (H := op_act h) in *. assert (SA : self_adjoint n H) by (intros a b; exact (PenProofs.ham_hermitian n h HH n a b (le_n n))). destruct AU as (A1 & A2 & A3).
  assert (NP : inner n phi phi = C1) by (unfold phi; rewrite (circ_preserves_inner n U _ _ A1 A3), QftProofs.inner_ket by exact LD; unfold ket; now rewrite Nat.eqb_refl).
  assert (WP : Within (Same D) phi) by apply SP. split; [exact WP|]. split; [exact NP|].
  set (v := fun I => (H phi I - RtoC E * phi I)%C). set (v' := restrict inS v). assert (EV : v == sadd (H phi) (sscale (RtoC (- E)) phi)) by (intros I; unfold v, sadd, sscale; apply C_ext; cbn; ring).
  assert (IV : forall a, inner n a v = (inner n a (H phi) + RtoC (- E) * inner n a phi)%C) by (intros a; rewrite (inner_ext n a a v _ (fun I => eq_refl) EV), inner_add_r, inner_scale_r; reflexivity).
  assert (O1 : forall J, J < 2 ^ n -> J <> D -> inner n (circ_act U (ket J)) v = inner n (circ_act U (ket J)) (H phi)).
  { intros J LJ NJ. rewrite IV. assert (O : inner n (circ_act U (ket J)) phi = C0) by (unfold phi; rewrite (circ_preserves_inner n U _ _ A1 A3), QftProofs.inner_ket by exact LJ; unfold ket; destruct (Nat.eqb_spec J D); [contradiction|reflexivity]). rewrite O. ring. }
  set (w := circ_act (circuit_adjoint U) v').
  assert (WV0 : forall J, J < 2 ^ n -> w J = inner n (circ_act U (ket J)) v'). { intros J LJ. rewrite <- (QftProofs.inner_ket n J w LJ). unfold w. rewrite (inner_conj n (ket J)), <- (circ_inner_adjoint n U v' (ket J) A1 A3), <- inner_conj. reflexivity. }
  assert (Sym : forall I J, Same I J -> Same J I) by (intros I J HIJ; apply (Trans I); [exact HIJ|apply Refl]).
  assert (WV : forall J, J < 2 ^ n -> Same D J -> w J = inner n (circ_act U (ket J)) v).
  { intros J LJ SJ. rewrite (WV0 J LJ). unfold inner. apply Csum_ext. intros I _. unfold v', restrict. destruct (inS I) eqn:EI'; [reflexivity|]. destruct (Ceq_dec (circ_act U (ket J) I) C0) as [Q|Q]; [rewrite Q; apply C_ext; cbn; ring|]. exfalso. apply SP in Q. assert (X : Same D I) by (apply (Trans J); [now apply Sym|exact Q]). apply HS' in X. congruence. }
  assert (NV : inner n v' v' = inner n w w).
  { unfold w. rewrite <- (circ_inner_adjoint n U v' (circ_act (circuit_adjoint U) v') A1 A3). apply inner_ext; [intros I; reflexivity|]. intros I. symmetry. apply (circuit_adjoint_undoes U v' A1). }
  unfold normsq. rewrite NV. unfold inner at 1. rewrite (sum_sub (fun I => Cconj (w I) * w I)%C (2 ^ n) dets ND).
  - f_equal. apply Csum_ext. intros J IJ. destruct (Comp J IJ) as (LJ & NJ & SJ). rewrite (WV J LJ SJ), (O1 J LJ NJ). set (z := inner n _ _). unfold Cabs. rewrite sqrt_sqrt by (unfold Cnorm2; nra). unfold Cnorm2. apply C_ext; cbn; ring.
  - intros J IJ. now apply Comp.
  - intros J LJ NI. assert (w J = C0) as ->; [|ring]. destruct (Nat.eq_dec J D) as [->|NJ].
    + rewrite WV by (try exact LJ; apply Refl). fold phi. rewrite IV, (PropPqeEigen.real_phase n H phi SA). fold E. rewrite NP. apply C_ext; cbn; ring.
    + rewrite WV0 by exact LJ. specialize (Comp' J LJ NJ NI). apply (PropPqeEigen.inner_disjoint n (Same D)).
      * intros I HI HI'. apply SP in HI. apply Comp'. apply (Trans I); now apply Sym.
      * intros I HI. unfold v', restrict in HI. apply HS'. destruct (inS I); [reflexivity|now elim HI].
Qed.
End Sector.
Lemma sum_total (g : nat -> C) (w : nat -> R) (pl : list (N * list fterm)) : forall off, (forall p D o, nth_error pl p = Some (D, o) -> g (N.to_nat D) = RtoC (w (off + p))) -> Csum g (map N.to_nat (map fst pl)) = RtoC (total w (seq off (length pl))).
Proof.
  induction pl as [|(D, o) pl IH]; intros off HG; [reflexivity|]. cbn [map length seq fst]. rewrite Csum_cons, (IH (S off)).
  - rewrite (HG 0 D o eq_refl). unfold total. cbn [fold_right]. rewrite Nat.add_0_r. apply C_ext; cbn; ring.
  - intros p D' o' E. specialize (HG (S p) D' o' E). now rewrite Nat.add_succ_r in HG.
Qed.

(** ---- specification ---- *)
(** the target irrep is that of the reference, and no determinant of its sector has a higher
    excitation rank than the pool contains *)
Definition FullSpqePool (sy : spqe_system) (m : nat) (R : N) : Prop :=
  total_irrep (sy_irreps sy) (orbitals (occ R) (2 * m)) = sy_irrep sy /\
  (nelectrons m R <= rank_limit (sy_rank sy) (nelectrons m R) \/ 2 * m <= nelectrons m R + rank_limit (sy_rank sy) (nelectrons m R)).
(** the Hamiltonian keeps the electron number, S_z and irrep of the reference *)
Definition KeepsSector (s : ucc) (sy : spqe_system) (m : nat) (R : N) : Prop :=
  forall psi, Within (SameSymmetry m (sy_irreps sy) (N.to_nat R)) psi -> Within (SameSymmetry m (sy_irreps sy) (N.to_nat R)) (op_act (ham s) psi).

Lemma same_symmetry_totals m irr R D : (forall z, z < 2 -> electrons z m D = electrons z m R) -> total_irrep irr (orbitals (occ D) (2 * m)) = total_irrep irr (orbitals (occ R) (2 * m)) -> SameSymmetry m irr (N.to_nat R) (N.to_nat D).
Proof.
  intros HE HI. split; [|split].
  - apply Nat2Z.inj. rewrite <- !PropPqeEigen.electrons_weight, !weight_orbitals, !PropPqeEigen.wlist_one, !electron_count, !HE by lia. reflexivity.
  - rewrite <- !sz_weight, !weight_orbitals, !spin_orbitals, !HE by lia. reflexivity.
  - apply N.bits_inj. intros k. unfold determinant_irrep. rewrite !irrep_odd. fold (weight (irrep_w irr k) (2 * m) (N.to_nat D)). fold (weight (irrep_w irr k) (2 * m) (N.to_nat R)). rewrite !weight_orbitals. rewrite <- !irrep_odd. now rewrite HI.
Qed.
Lemma totals_same m irr R D : SameSymmetry m irr (N.to_nat R) (N.to_nat D) -> total_irrep irr (orbitals (occ D) (2 * m)) = total_irrep irr (orbitals (occ R) (2 * m)).
Proof.
  intros (_ & _ & S3). apply N.bits_inj. intros k. apply (f_equal (fun x => N.testbit x k)) in S3. unfold determinant_irrep in S3. rewrite !irrep_odd in S3. fold (weight (irrep_w irr k) (2 * m) (N.to_nat D)) in S3. fold (weight (irrep_w irr k) (2 * m) (N.to_nat R)) in S3. rewrite !weight_orbitals in S3. now rewrite !irrep_odd.
Qed.
Lemma spqe_pool_sector sy m R pl : (R < 2 ^ N.of_nat (2 * m))%N -> FullSpqePool sy m R -> SpqePool sy m R pl ->
  NoDup (map N.to_nat (map fst pl)) /\ (forall J, In J (map N.to_nat (map fst pl)) -> J < 2 ^ (2 * m) /\ J <> N.to_nat R /\ SameSymmetry m (sy_irreps sy) (N.to_nat R) J) /\
  (forall J, J < 2 ^ (2 * m) -> J <> N.to_nat R -> ~ In J (map N.to_nat (map fst pl)) -> ~ SameSymmetry m (sy_irreps sy) (N.to_nat R) J) /\
  Forall (fun e => Forall (fun t => Symmetric m (sy_irreps sy) (fcre t) (fann t)) (snd e)) pl.
Proof.
  intros HlR (HI & HM) (HSt & HT & HF). set (max := rank_limit _ _) in *. set (irr := sy_irreps sy) in *.
  assert (G : forall D, Target m irr (sy_irrep sy) max R D -> (D < 2 ^ N.of_nat (2 * m))%N /\ D <> R /\ SameSymmetry m irr (N.to_nat R) (N.to_nat D)).
  { intros D (LD & HE & HI' & (HL & _)). split; [exact LD|]. split.
    - intros ->. replace (holes R R (2 * m)) with (@nil nat) in HL; [cbn in HL; lia|]. unfold holes. generalize (2 * m). intros n. clear. induction n as [|n IH]; [reflexivity|]. cbn [orbitals]. destruct (occ R n); exact IH.
    - apply same_symmetry_totals; [exact HE|]. now rewrite HI, HI'. }
  assert (X : forall D, (D < 2 ^ N.of_nat (2 * m))%N -> D <> R -> SameSymmetry m irr (N.to_nat R) (N.to_nat D) -> Excited m irr max R D) by (intros D LD NE SD; apply same_excited; try assumption).
  split; [now apply sorted_nodup|]. split; [|split].
  - intros J HJ. apply in_map_iff in HJ. destruct HJ as (D & <- & ID). apply HT in ID. destruct (G D ID) as (LD & NE & SD). split; [now apply n_lt_pow|]. split; [|exact SD]. intros Q. now apply N2Nat.inj in Q.
  - intros J LJ NJ NI SJ. apply NI. apply in_map_iff. exists (N.of_nat J). split; [apply Nat2N.id|]. apply HT. assert (LD : (N.of_nat J < 2 ^ N.of_nat (2 * m))%N) by (apply n_lt_pow; now rewrite Nat2N.id).
    assert (SD : SameSymmetry m irr (N.to_nat R) (N.to_nat (N.of_nat J))) by now rewrite Nat2N.id.
    destruct (X (N.of_nat J) LD) as (_ & HE & HL & _); [intros Q; apply NJ; now rewrite <- Q, Nat2N.id|exact SD|]. split; [exact LD|]. split; [exact HE|]. split; [|exact HL]. now rewrite (totals_same m irr R _ SD).
  - apply Forall_forall. intros (D, o) ID. rewrite Forall_forall in HF. specialize (HF _ ID). cbn [fst snd] in *. apply (permuted_symmetric _ _ _ _ HF). unfold excitation. apply pair_symmetric, (excitation_symmetric _ _ max). apply in_map with (f := fst) in ID. apply HT in ID. destruct (G D ID) as (LD & NE & SD). now apply X.
Qed.

Lemma spqe_circuit L o sy s m refb R pl tops ts : SpqeObject L o sy s m refb R -> SpqePool sy m R pl -> SpqeAnsatz s m R pl tops ts -> exists U, Applicable (2 * m) U /\ forall psi, exp_product (spqe_factors s pl tops ts) psi (circ_act U psi).
Proof.
  intros HO HP HU. pose proof HO as [(L1 & L2 & L3) HR' H2 H3 H4 H5 H6 H7 H8 H9 _ _ _]. pose proof (usable_ops sy s m R pl HP tops ts ts HU) as FU. destruct HU as (LT & HU). destruct (ansatz_made (srt L) (sort L) (spqe_object s pl tops ts) (2 * m) ts L1 L2 H8 (fun _ => H9) LT FU) as (U & _ & AU & HE). exists U. split; [exact AU|exact HE].
Qed.

(** ---- the residuals of the whole pool are the energy variance ---- *)
(** any Hermitian H: phi is the SPQE state and E its energy; the components of H phi - E phi on
    the determinants of the sector have the sum of the squared residuals of the pool *)
Theorem C94_sector_variance_partial : forall L o sy s m refb R pl tops ts M, SpqeObject L o sy s m refb R -> FullSpqePool sy m R -> SpqePool sy m R pl ->
  SpqeAnsatz s m R pl tops ts -> ExactMoments s m R pl tops ts M ->
  exists phi E, exp_product (spqe_factors s pl tops ts) (ket (N.to_nat R)) phi /\ inner (2 * m) phi phi = C1 /\ E = energy (2 * m) (op_act (ham s)) phi /\
    (forall I, phi I <> C0 -> SameSymmetry m (sy_irreps sy) (N.to_nat R) I) /\
    normsq (2 * m) (fun I => if in_sector m (sy_irreps sy) R I then op_act (ham s) phi I - RtoC E * phi I else C0)%C = total (fun p => Cabs (M p) * Cabs (M p))%R (seq 0 (length pl)).
Proof.
  intros L o sy s m refb R pl tops ts M HO HFu HP HU HM. pose proof (so_reference _ _ _ _ _ _ _ HO) as HR. pose proof (so_hamiltonian _ _ _ _ _ _ _ HO) as HH. pose proof HR as (_ & _ & HlR & _). destruct (spqe_pool_sector sy m R pl HlR HFu HP) as (ND & Comp & Comp' & FS). set (irr := sy_irreps sy) in *.
  destruct (spqe_circuit L o sy s m refb R pl tops ts HO HP HU) as (U & AU & HE).
  assert (Keep : Forall (fun x => forall I0 psi, Within (SameSymmetry m irr I0) psi -> Within (SameSymmetry m irr I0) (snd x psi)) (spqe_factors s pl tops ts)).
  { unfold spqe_factors. cbv zeta. assert (FS' : Forall (fun e => Forall (fun t => Symmetric m irr (fcre t) (fann t)) (snd e)) (map (fun e => (C0, snd e)) pl)) by (apply Forall_map; exact FS). assert (G := PropSector.factors_keep m irr (qubit_excitations s) _ FS' tops ts). destruct (compact s); [exact G|]. exact (PropPqeEigen.steps_conserve (fun A => forall I0 psi, Within (SameSymmetry m irr I0) psi -> Within (SameSymmetry m irr I0) (A psi)) _ _ G). }
  assert (SP : forall J, Within (SameSymmetry m irr J) (circ_act U (ket J))).
  { intros J. apply (product_within _ (spqe_factors s pl tops ts)) with (psi := ket J); [|apply HE|]. { eapply Forall_impl; [|exact Keep]. intros x Hx psi. apply Hx. } intros I HI. unfold ket in HI. destruct (Nat.eqb_spec I J) as [Q|Q]; [rewrite Q; now repeat split|now elim HI]. }
  destruct (sector_sum (2 * m) (ham s) U (SameSymmetry m irr) (N.to_nat R) (map N.to_nat (map fst pl)) (in_sector m irr R)) as (W & NP & V); try assumption.
  - now apply n_lt_pow.
  - intros I. repeat split.
  - intros I J K (A1 & A2 & A3) (B1 & B2 & B3). repeat split; congruence.
  - apply in_sector_same.
  - exists (circ_act U (ket (N.to_nat R))), (energy (2 * m) (op_act (ham s)) (circ_act U (ket (N.to_nat R)))). split; [apply HE|]. split; [exact NP|]. split; [reflexivity|]. split; [exact W|]. unfold restrict in V. rewrite V.
    rewrite (sum_total _ (fun p => Cabs (M p) * Cabs (M p))%R pl 0); [reflexivity|]. intros p D op Ep. cbn [Nat.add]. destruct (HM p D op Ep) as (a & b & Ea & Eb & ->). rewrite (state_eq _ _ (exp_product_unique _ _ _ _ Ea (HE _))), (state_eq _ _ (exp_product_unique _ _ _ _ Eb (HE _))). reflexivity.
Qed.
Print Assumptions C94_sector_variance_partial.
(** H keeps the sector: the squared norm of H phi - E phi is the energy variance *)
Theorem C94_variance_partial : forall L o sy s m refb R pl tops ts M, SpqeObject L o sy s m refb R -> FullSpqePool sy m R -> KeepsSector s sy m R -> SpqePool sy m R pl ->
  SpqeAnsatz s m R pl tops ts -> ExactMoments s m R pl tops ts M ->
  exists phi E, exp_product (spqe_factors s pl tops ts) (ket (N.to_nat R)) phi /\ inner (2 * m) phi phi = C1 /\ E = energy (2 * m) (op_act (ham s)) phi /\
    normsq (2 * m) (fun I => op_act (ham s) phi I - RtoC E * phi I)%C = total (fun p => Cabs (M p) * Cabs (M p))%R (seq 0 (length pl)).
Proof.
  intros L o sy s m refb R pl tops ts M HO HFu HN HP HU HM. destruct (C94_sector_variance_partial L o sy s m refb R pl tops ts M HO HFu HP HU HM) as (phi & E & X1 & X2 & X3 & X4 & V). exists phi, E. split; [exact X1|]. split; [exact X2|]. split; [exact X3|]. rewrite <- V. unfold normsq. set (a := fun I : nat => (op_act (ham s) phi I - RtoC E * phi I)%C). set (b := fun I : nat => if in_sector m (sy_irreps sy) R I then _ else _). enough (AB : forall I, a I = b I) by (now rewrite (inner_ext (2 * m) a b a b AB AB)). intros I. unfold a, b.
  destruct (in_sector m (sy_irreps sy) R I) eqn:EI; [reflexivity|]. assert (NS : ~ SameSymmetry m (sy_irreps sy) (N.to_nat R) I) by (rewrite <- in_sector_same; congruence).
  destruct (Ceq_dec (phi I) C0) as [Q|Q]; [|elim NS; now apply X4]. destruct (Ceq_dec (op_act (ham s) phi I) C0) as [Q'|Q']; [|elim NS; apply (HN phi X4 I Q')]. rewrite Q, Q'. apply C_ext; cbn; ring.
Qed.
Print Assumptions C94_variance_partial.
Lemma total_zero (w : nat -> R) l : (forall p, (0 <= w p)%R) -> total w l = 0%R -> Forall (fun p => w p = 0%R) l.
Proof.
  intros HW. induction l as [|p l IH]; intros HT; constructor; unfold total in HT; cbn [fold_right] in HT; fold (total w l) in HT; assert (0 <= total w l)%R by (unfold total; clear - HW; induction l as [|q l IH]; cbn [fold_right]; [lra|]; specialize (HW q); lra); specialize (HW p); [lra|apply IH; lra].
Qed.
Lemma cabs_sq_zero z : (Cabs z * Cabs z = 0)%R <-> z = C0.
Proof. unfold Cabs. rewrite sqrt_sqrt by (unfold Cnorm2; nra). unfold Cnorm2. split; [intros X; apply C_ext; cbn; nra|intros ->; cbn; ring]. Qed.
(** the residuals of the whole pool vanish exactly when the SPQE state is an eigenstate *)
Theorem C94_eigenstate_partial : forall L o sy s m refb R pl tops ts M, SpqeObject L o sy s m refb R -> FullSpqePool sy m R -> KeepsSector s sy m R -> SpqePool sy m R pl ->
  SpqeAnsatz s m R pl tops ts -> ExactMoments s m R pl tops ts M ->
  ((forall p, p < length pl -> M p = C0) <->
   exists phi E, exp_product (spqe_factors s pl tops ts) (ket (N.to_nat R)) phi /\ inner (2 * m) phi phi = C1 /\ forall I, I < 2 ^ (2 * m) -> op_act (ham s) phi I = (RtoC E * phi I)%C).
Proof.
  intros L o sy s m refb R pl tops ts M HO HFu HN HP HU HM. destruct (C94_variance_partial L o sy s m refb R pl tops ts M HO HFu HN HP HU HM) as (phi & E & X1 & X2 & X3 & V). split.
  - intros HZ. exists phi, E. split; [exact X1|]. split; [exact X2|]. intros I LI. assert (T0 : total (fun p => Cabs (M p) * Cabs (M p))%R (seq 0 (length pl)) = 0%R).
    { unfold total. assert (G : forall l, (forall p, In p l -> M p = C0) -> fold_right (fun a z => (Cabs (M a) * Cabs (M a) + z)%R) 0%R l = 0%R) by (induction l as [|p l IH]; intros HL; [reflexivity|]; cbn [fold_right]; rewrite IH by (intros q Hq; apply HL; now right); rewrite (proj2 (cabs_sq_zero (M p)) (HL p (or_introl eq_refl))); ring). apply G. intros p Hp. apply HZ. apply in_seq in Hp. lia. }
    rewrite T0 in V. pose proof (norm_zero (2 * m) _ V I LI) as V0. cbn beta in V0. apply (f_equal (fun x => (x + RtoC E * phi I)%C)) in V0. transitivity (op_act (ham s) phi I - RtoC E * phi I + RtoC E * phi I)%C; [ring|]. rewrite V0. ring.
  - intros (phi' & E' & Y1 & _ & Y3). assert (phi' = phi) as -> by (apply state_eq; exact (exp_product_unique _ _ _ _ Y1 X1)).
    assert (EE : E = E'). { rewrite X3. unfold energy. assert (Q : inner (2 * m) phi (op_act (ham s) phi) = inner (2 * m) phi (sscale (RtoC E') phi)) by (unfold inner; apply Csum_ext; intros I HI; apply in_seq in HI; rewrite Y3 by lia; reflexivity). rewrite Q, inner_scale_r, X2. cbn. ring. }
    assert (T0 : total (fun p => Cabs (M p) * Cabs (M p))%R (seq 0 (length pl)) = 0%R).
    { rewrite <- V. unfold normsq. transitivity (Re (inner (2 * m) (fun _ => C0) (fun _ => C0))); [|unfold inner; rewrite Csum_zero; [reflexivity|intros; ring]]. f_equal. unfold inner. apply Csum_ext. intros I HI. apply in_seq in HI. rewrite Y3, EE by lia. apply C_ext; cbn; ring. }
    apply total_zero in T0; [|intros p; apply Rle_0_sqr]. intros p Hp. rewrite Forall_forall in T0. apply cabs_sq_zero. apply T0. apply in_seq. lia.
Qed.
Print Assumptions C94_eigenstate_partial.

(** ---- the operators of the ansatz and the unused ones ---- *)
Lemma residual_moment L o sy s m refb R pl tops ts M rs : SpqeObject L o sy s m refb R -> SpqePool sy m R pl -> SpqeAnsatz s m R pl tops ts -> ExactMoments s m R pl tops ts M -> ExactResiduals s m R pl tops ts rs ->
  sum_squares rs = total (fun p => Cabs (M p) * Cabs (M p))%R tops.
Proof.
  intros HO HP HU HM HR. destruct (spqe_circuit L o sy s m refb R pl tops ts HO HP HU) as (U & AU & HE). destruct (reference_ket L o sy s m refb R HO) as (q0 & _ & W0 & N0 & P0). pose proof (so_reference _ _ _ _ _ _ _ HO) as (_ & _ & HlR & _). pose proof (so_libraries _ _ _ _ _ _ _ HO) as (L1 & _).
  unfold ExactResiduals in HR. set (fs := spqe_factors s pl tops ts) in *. assert (FS : forall p D op, nth_error pl p = Some (D, op) -> Projection (2 * m) (op_act (ham s)) fs (N.to_nat R) (ket (N.to_nat D)) (M p)) by exact HM. clear HU HM. clearbody fs. unfold sum_squares.
  induction HR as [|p r tops rs (D & op & Ep & Pr) _ IH]; [reflexivity|]. unfold total in *. cbn [fold_right]. rewrite IH. f_equal.
  destruct (pool_pair _ _ _ _ _ _ _ _ HP (nth_error_In _ _ Ep)) as (HD & ND & LL & LB & Pm).
  destruct (MomentSpace.excitation_apply (srt L) (qubit_excitations s) (2 * m) R D op q0 L1 HlR HD LL ltac:(pose proof (so_limit _ _ _ _ _ _ _ HO); lia) Pm W0 N0 P0) as (q & k & qt & _ & Hk & _ & _ & _ & _ & AO).
  destruct (FS p D op Ep) as (a & b & Ea & Eb & ->). destruct Pr as (a' & b' & Ea' & Eb' & ->). assert (a' = a) as -> by (apply state_eq; exact (exp_product_unique _ _ _ _ Ea' Ea)).
  assert (EB : b' == sscale (RtoC k) b). { eapply seq_trans; [exact (exp_product_unique _ _ _ _ Eb' (HE _))|]. eapply seq_trans; [apply circ_act_ext; exact AO|]. eapply seq_trans; [apply PauliProofs.circ_act_scale|]. intros I. unfold sscale. now rewrite (exp_product_unique _ _ _ _ (HE (ket (N.to_nat D))) Eb I). }
  rewrite (inner_ext _ _ _ _ _ EB (fun I => eq_refl)), inner_scale_l. set (z := inner _ b _). unfold Cabs. rewrite sqrt_sqrt by (unfold Cnorm2; nra). unfold Cnorm2. destruct Hk as [-> | ->]; cbn; ring.
Qed.
Lemma total_split (w : nat -> R) (pl : list (N * list fterm)) tops : let size := length pl in NoDup tops -> Forall (fun p => p < size) tops -> total w (seq 0 size) = (total w tops + total w (unused size tops))%R.
Proof.
  intros size ND FB. rewrite <- total_app. apply total_perm. apply NoDup_Permutation; [apply seq_NoDup| |].
  - assert (NU : NoDup (unused size tops)) by (unfold unused; apply NoDup_filter, seq_NoDup). assert (X : forall p, In p (unused size tops) -> ~ In p tops) by (intros p Hp; now apply (unused_in pl) in Hp). revert NU X. generalize (unused size tops) as u. clear FB. induction ND as [|p l Hp ND IH]; intros u NU X; [exact NU|]. cbn [app]. constructor; [|apply IH; [exact NU|intros q Hq Hl; apply (X q Hq); now right]]. intros HI. apply in_app_or in HI. destruct HI as [HI|HI]; [contradiction|apply (X p HI); now left].
  - intros p. unfold size in *. rewrite in_app_iff, (unused_in pl), in_seq. rewrite Forall_forall in FB. destruct (in_dec Nat.eq_dec p tops) as [Q|Q]; [specialize (FB p Q)|]; intuition lia.
Qed.
(** any Hermitian H, within the sector *)
Theorem C94_split_sector_partial : forall L o sy s m refb R pl tops ts rs M, SpqeObject L o sy s m refb R -> FullSpqePool sy m R -> SpqePool sy m R pl ->
  SpqeAnsatz s m R pl tops ts -> NoDup tops -> Forall (fun p => p < length pl) tops -> ExactResiduals s m R pl tops ts rs -> ExactMoments s m R pl tops ts M ->
  exists phi E, exp_product (spqe_factors s pl tops ts) (ket (N.to_nat R)) phi /\ inner (2 * m) phi phi = C1 /\ E = energy (2 * m) (op_act (ham s)) phi /\
    (forall I, phi I <> C0 -> SameSymmetry m (sy_irreps sy) (N.to_nat R) I) /\
    normsq (2 * m) (fun I => if in_sector m (sy_irreps sy) R I then op_act (ham s) phi I - RtoC E * phi I else C0)%C = (sum_squares rs + total (fun p => Cabs (M p) * Cabs (M p)) (unused (length pl) tops))%R.
Proof.
  intros L o sy s m refb R pl tops ts rs M HO HFu HP HU ND FB HR HM. destruct (C94_sector_variance_partial L o sy s m refb R pl tops ts M HO HFu HP HU HM) as (phi & E & X1 & X2 & X3 & X4 & V). exists phi, E. split; [exact X1|]. split; [exact X2|]. split; [exact X3|]. split; [exact X4|]. rewrite V, (total_split _ _ tops ND FB), (residual_moment L o sy s m refb R pl tops ts M rs HO HP HU HM HR). reflexivity.
Qed.
Print Assumptions C94_split_sector_partial.
Lemma keeps_unrestrict s sy m R phi E : KeepsSector s sy m R -> (forall I, phi I <> C0 -> SameSymmetry m (sy_irreps sy) (N.to_nat R) I) ->
  normsq (2 * m) (fun I => op_act (ham s) phi I - RtoC E * phi I)%C = normsq (2 * m) (fun I => if in_sector m (sy_irreps sy) R I then op_act (ham s) phi I - RtoC E * phi I else C0)%C.
Proof.
  intros HN X4. unfold normsq. set (a := fun I : nat => (op_act (ham s) phi I - RtoC E * phi I)%C). set (b := fun I : nat => if in_sector m (sy_irreps sy) R I then _ else _). enough (AB : forall I, a I = b I) by (now rewrite (inner_ext (2 * m) a b a b AB AB)). intros I. unfold a, b.
  destruct (in_sector m (sy_irreps sy) R I) eqn:EI; [reflexivity|]. assert (NS : ~ SameSymmetry m (sy_irreps sy) (N.to_nat R) I) by (rewrite <- in_sector_same; congruence).
  destruct (Ceq_dec (phi I) C0) as [Q|Q]; [|elim NS; now apply X4]. destruct (Ceq_dec (op_act (ham s) phi I) C0) as [Q'|Q']; [|elim NS; apply (HN phi X4 I Q')]. rewrite Q, Q'. apply C_ext; cbn; ring.
Qed.
(** the energy variance is the sum of the squared residuals of the operators of the ansatz and
    of those that are not used *)
Theorem C94_split_partial : forall L o sy s m refb R pl tops ts rs M, SpqeObject L o sy s m refb R -> FullSpqePool sy m R -> KeepsSector s sy m R -> SpqePool sy m R pl ->
  SpqeAnsatz s m R pl tops ts -> NoDup tops -> Forall (fun p => p < length pl) tops -> ExactResiduals s m R pl tops ts rs -> ExactMoments s m R pl tops ts M ->
  exists phi E, exp_product (spqe_factors s pl tops ts) (ket (N.to_nat R)) phi /\ inner (2 * m) phi phi = C1 /\ E = energy (2 * m) (op_act (ham s)) phi /\
    normsq (2 * m) (fun I => op_act (ham s) phi I - RtoC E * phi I)%C = (sum_squares rs + total (fun p => Cabs (M p) * Cabs (M p)) (unused (length pl) tops))%R.
Proof.
  intros L o sy s m refb R pl tops ts rs M HO HFu HN HP HU ND FB HR HM. destruct (C94_variance_partial L o sy s m refb R pl tops ts M HO HFu HN HP HU HM) as (phi & E & X1 & X2 & X3 & V). exists phi, E. split; [exact X1|]. split; [exact X2|]. split; [exact X3|]. rewrite V, (total_split _ _ tops ND FB), (residual_moment L o sy s m refb R pl tops ts M rs HO HP HU HM HR). reflexivity.
Qed.
Print Assumptions C94_split_partial.

(** ---- runs ---- *)
Lemma spqe_moments L o sy s m refb R pl tops ts : SpqeObject L o sy s m refb R -> SpqePool sy m R pl -> SpqeAnsatz s m R pl tops ts -> exists M, ExactMoments s m R pl tops ts M.
Proof.
  intros HO HP HU. destruct (spqe_circuit L o sy s m refb R pl tops ts HO HP HU) as (U & _ & HE). exists (fun p => inner (2 * m) (circ_act U (ket (N.to_nat (nth p (map fst pl) 0%N)))) (op_act (ham s) (circ_act U (ket (N.to_nat R))))). intros p D op Ep. exists (circ_act U (ket (N.to_nat R))), (circ_act U (ket (N.to_nat D))). split; [apply HE|]. split; [apply HE|].
  rewrite (nth_error_nth (map fst pl) p 0%N (map_nth_error fst p pl Ep)). reflexivity.
Qed.
(** any Hermitian H, within the sector: with phi the final state, the squared norm of H phi - Egs phi is the
    sum of the squared final residuals of the operators of the ansatz and of the unused ones;
    if the run converged the unused ones contribute less than the threshold squared, up to the
    error of the time step *)
Theorem C94_run_sector_partial : forall L o so sy s m refb R r, SpqeObject L o sy s m refb R -> FullSpqePool sy m R -> ReturnsAPoint (minimize L) \/ is_jacobi_run o = true -> sp_dt so <> 0%R ->
  spqe_full_run L o so sy s = Ok r -> SpqeAnsatz s m R (sr_pool r) (sr_tops r) (sr_tamps r) ->
  exists phi rs rest, exp_product (spqe_factors s (sr_pool r) (sr_tops r) (sr_tamps r)) (ket (N.to_nat R)) phi /\ inner (2 * m) phi phi = C1 /\ sr_Egs r = energy (2 * m) (op_act (ham s)) phi /\
    ExactResiduals s m R (sr_pool r) (sr_tops r) (sr_tamps r) rs /\ (0 <= rest)%R /\
    (forall I, phi I <> C0 -> SameSymmetry m (sy_irreps sy) (N.to_nat R) I) /\
    normsq (2 * m) (fun I => if in_sector m (sy_irreps sy) R I then op_act (ham s) phi I - RtoC (sr_Egs r) * phi I else C0)%C = (sum_squares rs + rest)%R /\
    (sr_converged r = true -> rest = 0%R \/ (rest < spqe_thresh so * spqe_thresh so + INR (length (sr_pool r) - length (sr_tops r)) * step_error s (sp_dt so))%R).
Proof.
  intros L o so sy s m refb R r HO HFu HM Hdt E HU. destruct (full_run L o so sy s m refb R r HO HM Hdt E) as (_ & HP & hist & _ & HRp & _ & _). destruct (rp_once _ _ _ _ _ _ HRp) as (ND & FB).
  destruct (C91_energy_partial L o so sy s m refb R r HO HM Hdt E HU) as ((phi & X1 & X2 & X3) & _). pose proof (C91_converged_partial L o so sy s m refb R r HO HM Hdt E HU) as HC.
  destruct (spqe_residuals_ok L o sy s m refb R (sr_pool r) HO HP (sr_tops r) (sr_tamps r) (sr_tamps r) HU) as (rs & _ & HR & _). destruct (spqe_moments L o sy s m refb R _ _ _ HO HP HU) as (M & HMo).
  destruct (C94_split_sector_partial L o sy s m refb R _ _ _ rs M HO HFu HP HU ND FB HR HMo) as (phi' & E' & Y1 & Y2 & Y3 & Y4 & V). assert (phi' = phi) as -> by (apply state_eq; exact (exp_product_unique _ _ _ _ Y1 X1)). rewrite <- X3 in Y3. subst E'.
  set (rest := total (fun p => Cabs (M p) * Cabs (M p))%R (unused (length (sr_pool r)) (sr_tops r))) in *. exists phi, rs, rest. split; [exact X1|]. split; [exact X2|]. split; [exact X3|]. split; [exact HR|]. split; [apply total_pos; intros p; apply Rle_0_sqr|]. split; [exact Y4|]. split; [exact V|].
  intros EC. rewrite EC in HC. destruct HC as (_ & HC). assert (LU : length (sr_pool r) = length (sr_tops r) + length (unused (length (sr_pool r)) (sr_tops r))).
  { clear - ND FB. pose proof (total_split (fun _ => 1%R) (sr_pool r) (sr_tops r) ND FB) as Q. assert (TL : forall l : list nat, total (fun _ => 1%R) l = INR (length l)) by (induction l as [|p l IH]; [reflexivity|]; unfold total in *; cbn [fold_right length]; rewrite S_INR, IH; ring). rewrite !TL, seq_length, <- plus_INR in Q. now apply INR_eq in Q. }
  destruct HC as [HC|(M' & HM' & HC)].
  - left. unfold rest. destruct (unused _ _) as [|p l] eqn:EU; [reflexivity|]. cbn [length] in LU. lia.
  - right. replace (length (sr_pool r) - length (sr_tops r)) with (length (unused (length (sr_pool r)) (sr_tops r))) by lia. cbv zeta in HC. eapply Rle_lt_trans; [|exact HC]. apply Req_le. unfold rest, total. assert (G : forall l, Forall (fun p => p < length (sr_pool r)) l -> fold_right (fun a z => (Cabs (M a) * Cabs (M a) + z)%R) 0%R l = fold_right (fun a z => (Cabs (M' a) * Cabs (M' a) + z)%R) 0%R l).
    { induction 1 as [|p l Hp _ IH]; [reflexivity|]. cbn [fold_right]. rewrite IH. destruct (nth_error (sr_pool r) p) as [(D, op)|] eqn:Ep; [|apply nth_error_None in Ep; lia]. destruct (HMo p D op Ep) as (a & b & A1 & B1 & ->), (HM' p D op Ep) as (a' & b' & A2 & B2 & ->). rewrite (state_eq _ _ (exp_product_unique _ _ _ _ A2 A1)), (state_eq _ _ (exp_product_unique _ _ _ _ B2 B1)). reflexivity. }
    apply G. apply Forall_forall. intros p Hp. apply unused_in in Hp. apply Hp.
Qed.
Print Assumptions C94_run_sector_partial.
(** the result of a run: with phi the final state, the squared norm of H phi - Egs phi is the
    sum of the squared final residuals of the operators of the ansatz and of the unused ones;
    if the run converged the unused ones contribute less than the threshold squared, up to the
    error of the time step *)
Theorem C94_run_partial : forall L o so sy s m refb R r, SpqeObject L o sy s m refb R -> FullSpqePool sy m R -> KeepsSector s sy m R -> ReturnsAPoint (minimize L) \/ is_jacobi_run o = true -> sp_dt so <> 0%R ->
  spqe_full_run L o so sy s = Ok r -> SpqeAnsatz s m R (sr_pool r) (sr_tops r) (sr_tamps r) ->
  exists phi rs rest, exp_product (spqe_factors s (sr_pool r) (sr_tops r) (sr_tamps r)) (ket (N.to_nat R)) phi /\ inner (2 * m) phi phi = C1 /\ sr_Egs r = energy (2 * m) (op_act (ham s)) phi /\
    ExactResiduals s m R (sr_pool r) (sr_tops r) (sr_tamps r) rs /\ (0 <= rest)%R /\
    normsq (2 * m) (fun I => op_act (ham s) phi I - RtoC (sr_Egs r) * phi I)%C = (sum_squares rs + rest)%R /\
    (sr_converged r = true -> rest = 0%R \/ (rest < spqe_thresh so * spqe_thresh so + INR (length (sr_pool r) - length (sr_tops r)) * step_error s (sp_dt so))%R).
Proof.
  intros L o so sy s m refb R r HO HFu HN HM Hdt E HU. destruct (C94_run_sector_partial L o so sy s m refb R r HO HFu HM Hdt E HU) as (phi & rs & rest & X1 & X2 & X3 & X4 & X5 & X6 & V & HC). exists phi, rs, rest. split; [exact X1|]. split; [exact X2|]. split; [exact X3|]. split; [exact X4|]. split; [exact X5|]. split; [|exact HC]. now rewrite (keeps_unrestrict s sy m R phi (sr_Egs r) HN X6).
Qed.
Print Assumptions C94_run_partial.
(** an eigenvector chi with eigenvalue lambda: the error of the energy of a run times the overlap
    of chi with the final state is at most the norm of the residuals *)
Theorem C94_energy_error_partial : forall L o so sy s m refb R r, SpqeObject L o sy s m refb R -> FullSpqePool sy m R -> KeepsSector s sy m R -> ReturnsAPoint (minimize L) \/ is_jacobi_run o = true -> sp_dt so <> 0%R ->
  spqe_full_run L o so sy s = Ok r -> SpqeAnsatz s m R (sr_pool r) (sr_tops r) (sr_tamps r) ->
  exists phi rs rest, exp_product (spqe_factors s (sr_pool r) (sr_tops r) (sr_tamps r)) (ket (N.to_nat R)) phi /\ ExactResiduals s m R (sr_pool r) (sr_tops r) (sr_tamps r) rs /\
    (sr_converged r = true -> rest = 0%R \/ (rest < spqe_thresh so * spqe_thresh so + INR (length (sr_pool r) - length (sr_tops r)) * step_error s (sp_dt so))%R) /\
    forall chi lambda, inner (2 * m) chi chi = C1 -> (forall I, I < 2 ^ (2 * m) -> op_act (ham s) chi I = (RtoC lambda * chi I)%C) ->
      (Rabs (sr_Egs r - lambda) * Cabs (inner (2 * m) chi phi) <= sqrt (sum_squares rs + rest))%R.
Proof.
  intros L o so sy s m refb R r HO HFu HN HM Hdt ER HU. destruct (C94_run_partial L o so sy s m refb R r HO HFu HN HM Hdt ER HU) as (phi & rs & rest & X1 & X2 & X3 & X4 & _ & V & HC). exists phi, rs, rest. split; [exact X1|]. split; [exact X4|]. split; [exact HC|].
  intros chi lam Hchi HE. set (n := 2 * m) in *. set (H := op_act (ham s)) in *. assert (SA : self_adjoint n H) by (intros a b; exact (PenProofs.ham_hermitian n (ham s) (so_hamiltonian _ _ _ _ _ _ _ HO) n a b (le_n n))). set (E := sr_Egs r) in *.
  set (v := fun I => (H phi I - RtoC E * phi I)%C) in *. assert (EV : v == sadd (H phi) (sscale (RtoC (- E)) phi)) by (intros I; unfold v, sadd, sscale; apply C_ext; cbn; ring).
  assert (IV : inner n chi v = (RtoC (lam - E) * inner n chi phi)%C).
  { rewrite (inner_ext n chi chi v _ (fun I => eq_refl) EV), inner_add_r, inner_scale_r, SA.
    assert (Q : inner n (H chi) phi = inner n (sscale (RtoC lam) chi) phi) by (unfold inner; apply Csum_ext; intros I HI; apply in_seq in HI; rewrite HE by lia; reflexivity). rewrite Q, inner_scale_l. apply C_ext; cbn; ring. }
  pose proof (MomentProofs.cs_abs n chi v) as CS. rewrite IV in CS. assert (CM : Cabs (RtoC (lam - E) * inner n chi phi) = (Rabs (E - lam) * Cabs (inner n chi phi))%R).
  { unfold Cabs, Cnorm2. rewrite <- (sqrt_Rsqr_abs (E - lam)), <- sqrt_mult; [|apply Rle_0_sqr|nra]. f_equal. unfold Rsqr. cbn. ring. }
  rewrite CM in CS. unfold norm in CS at 1. replace (normsq n chi) with 1%R in CS by (unfold normsq; rewrite Hchi; reflexivity). rewrite sqrt_1, Rmult_1_l in CS. unfold norm in CS. now rewrite V in CS.
Qed.
Print Assumptions C94_energy_error_partial.

(** ---- non-vacuity: two electrons in four spin orbitals, H = X0 X1 X2 X3 ---- *)
Lemma ex_keeps_sector : KeepsSector ex_spqe ex_system 2 3.
Proof.
  intros psi W I HI. set (J := Bits.flip (Bits.flip (Bits.flip (Bits.flip I 3) 2) 1) 0). assert (HJ : psi J <> C0).
  { intros Q. apply HI. unfold op_act, ex_spqe, ex_hamiltonian. cbn [ham]. rewrite Csum_cons, Csum_nil. cbn [fst snd]. unfold circ_act. cbn [fold_left]. unfold ExpCircuit.gX1. rewrite !ThreeQubit.act_1, !GateEval.ev_X. fold J. rewrite Q. ring. }
  apply W in HJ. assert (B : forall p, p < 4 -> bit J p = negb (bit I p)) by (intros p Hp; unfold J; rewrite !bit_flip; do 4 (destruct p as [|p]; [reflexivity|]); lia). clearbody J. pose proof (B 0 ltac:(lia)) as B0. pose proof (B 1 ltac:(lia)) as B1. pose proof (B 2 ltac:(lia)) as B2. pose proof (B 3 ltac:(lia)) as B3.
  unfold SameSymmetry, two_sz, n_up, n_down, n_electrons, determinant_irrep in *. change (2 * 2) with 4 in *. cbn [seq filter map Nat.mul Nat.add length sy_irreps ex_system] in *. rewrite ?B0, ?B1, ?B2, ?B3 in HJ. clear - HJ.
  destruct (bit I 0), (bit I 1), (bit I 2), (bit I 3); cbn in HJ |- *; destruct HJ as (X & Y & Z); try discriminate X; try discriminate Y; repeat split.
Qed.
Example C94_nonvacuous : SpqeObject ex_spqe_libraries ex_spqe_run ex_system ex_spqe 2 [true; true; false; false] 3 /\ FullSpqePool ex_system 2 3 /\ KeepsSector ex_spqe ex_system 2 3 /\
  exists r, spqe_full_run ex_spqe_libraries ex_spqe_run (ex_spqe_opts (1/2)) ex_system ex_spqe = Ok r /\ SpqeAnsatz ex_spqe 2 3 (sr_pool r) (sr_tops r) (sr_tamps r) /\ sr_tops r <> [] /\ exists M, ExactMoments ex_spqe 2 3 (sr_pool r) (sr_tops r) (sr_tamps r) M.
Proof.
  destruct C91_nonvacuous as (HO & HM & _ & (r & E & HU & NE) & _). split; [exact HO|]. split; [split; [reflexivity|left; cbn; lia]|]. split; [exact ex_keeps_sector|]. exists r. split; [exact E|]. split; [exact HU|]. split; [exact NE|].
  assert (DT : sp_dt (ex_spqe_opts (1/2)) <> 0%R) by (cbn; lra). destruct (full_run _ _ _ _ _ _ _ _ _ HO (or_introl HM) DT E) as (_ & HP & _). exact (spqe_moments _ _ _ _ _ _ _ _ _ _ HO HP HU).
Qed.
