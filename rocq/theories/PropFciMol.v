(** C93 / C94 for the Hamiltonian of a molecule: the residuals of PQE and SPQE bound the distance
    of the state from an eigenstate of the electronic Hamiltonian itself. *)
From Coq Require Import Reals String List Arith ZArith NArith Bool Lia Lra.
From Verif Require Import CBase Result Bits Spec OpSpec GateModel ComputerModel LibProofs OperatorModel MeasureModel SQSpec SQModel SQPoolSpec SQPoolModel RealOps PyModel ExpSpec AnsatzModel SpinSpec SymmSums SectorProofs SectorPools FermiProofs ResModel RunModel GradModel GradSpec GradCalc MolModel MolSpec MolHerm QkProofs GradProofs GradAnsatz PropAnsatz PropOperator PropSQ PropMeasure PropGrad PropRes PropSpin PropRun PropPqe PropMol SpqeRunModel SelectModel PropSpqe PropSpqeRun PropFci PropSpqeFci.
From Verif Require Import SparseNorm.
From Verif Require SectorMol PropSector PauliProofs PenProofs MomentProofs PropPqeEigen PointModel StateProofs QiteNorm.
Import ListNotations.
Local Open Scope nat_scope.

Lemma restrict_norm (inS : nat -> bool) n (x : state) : (norm n (restrict inS x) <= norm n x)%R.
Proof.
  unfold norm. apply sqrt_le_1_alt. rewrite !normsq_sum. generalize (seq 0 (2 ^ n)) as l. induction l as [|I l IH]; cbn [fold_right]; [lra|]. unfold restrict. unfold restrict in IH. destruct (inS I); [lra|].
  assert (0 <= Cnorm2 (x I))%R by (unfold Cnorm2; nra). replace (Cnorm2 C0) with 0%R by (unfold Cnorm2; cbn; ring). lra.
Qed.
(** F = H + D, F and phi stay in the sector: only the part of H phi - E phi in the sector counts *)
Lemma sector_split (inS : nat -> bool) n (F H D : state -> state) E phi : F phi == sadd (H phi) (D phi) -> (forall I, phi I <> C0 -> inS I = true) -> (forall I, F phi I <> C0 -> inS I = true) ->
  (norm n (fun I => F phi I - RtoC E * phi I)%C <= norm n (restrict inS (fun I => H phi I - RtoC E * phi I)%C) + norm n (D phi))%R.
Proof.
  intros EF W1 W2. eapply Rle_trans; [|apply Rplus_le_compat_l, (restrict_norm inS)]. eapply Rle_trans; [|apply norm_triangle]. apply Req_le, norm_ext. intros I _. unfold sadd, restrict. destruct (inS I) eqn:EI.
  - rewrite (EF I). unfold sadd. ring.
  - destruct (Ceq_dec (phi I) C0) as [Q|Q]; [|apply W1 in Q; congruence]. destruct (Ceq_dec (F phi I) C0) as [Q'|Q']; [|apply W2 in Q'; congruence]. rewrite Q, Q'. apply C_ext; cbn; ring.
Qed.
(** overlap with an eigenvector of a Hermitian map *)
Lemma eigen_overlap n (F : state -> state) E lam phi chi : (forall a b, inner n a (F b) = inner n (F a) b) -> inner n chi chi = C1 -> (forall I, I < 2 ^ n -> F chi I = (RtoC lam * chi I)%C) ->
  (Rabs (E - lam) * Cabs (inner n chi phi) <= norm n (fun I => F phi I - RtoC E * phi I)%C)%R.
Proof.
  intros SA Hchi HE. set (v := fun I => (F phi I - RtoC E * phi I)%C) in *. assert (EV : v == sadd (F phi) (sscale (RtoC (- E)) phi)) by (intros I; unfold v, sadd, sscale; apply C_ext; cbn; ring).
  assert (IV : inner n chi v = (RtoC (lam - E) * inner n chi phi)%C).
  { rewrite (inner_ext n chi chi v _ (fun I => eq_refl) EV), inner_add_r, inner_scale_r, SA.
    assert (Q : inner n (F chi) phi = inner n (sscale (RtoC lam) chi) phi) by (unfold inner; apply Csum_ext; intros I HI; apply in_seq in HI; rewrite HE by lia; reflexivity). rewrite Q, inner_scale_l. apply C_ext; cbn; ring. }
  pose proof (MomentProofs.cs_abs n chi v) as CS. rewrite IV in CS. assert (CM : Cabs (RtoC (lam - E) * inner n chi phi) = (Rabs (E - lam) * Cabs (inner n chi phi))%R).
  { unfold Cabs, Cnorm2. rewrite <- (sqrt_Rsqr_abs (E - lam)), <- sqrt_mult; [|apply Rle_0_sqr|nra]. f_equal. unfold Rsqr. cbn. ring. }
  rewrite CM in CS. unfold norm in CS at 1. replace (normsq n chi) with 1%R in CS by (unfold normsq; rewrite Hchi; reflexivity). now rewrite sqrt_1, Rmult_1_l in CS.
Qed.

(** ---- specification ---- *)
(** the Hamiltonian of the object is what jw_transform makes of the electronic Hamiltonian that
    create_psi_mol assembles from real, symmetry-adapted integrals; m active spatial orbitals *)
Record MolecularProblem (srt : sorter) (s : ucc) (m : nat) (e : R) (nmo c v : nat) (h : nat -> nat -> R) (g : nat -> nat -> nat -> nat -> R) (all_irreps : list N) : Prop := {
  mp_sort : legal_sort srt;
  mp_active : m = nmo - v - c;
  mp_real : RealOrbitals h g;
  mp_symmetric : SectorMol.SymmetricIntegrals all_irreps h g;
  mp_transform : exists kept, jw_transform srt false (mol_sq e nmo c v h g) = Ok (kept, ham s) }.
(** d and fd: the terms with coefficients of at most 1e-12 that jw_transform drops *)
Definition DroppedTerms (F H : state -> state) (d : qop) (fd : list fterm) : Prop := negligible d /\ fnegligible fd /\ forall psi, F psi == sadd (H psi) (sadd (op_act d psi) (fermi_act fd psi)).

Lemma molecular_facts srt s m e nmo c v h g ai : MolecularProblem srt s m e nmo c v h g ai ->
  Hamiltonian (2 * m) (ham s) /\ Forall (fun t => Nat.even (count_Y (snd t)) = true) (ham s) /\ (exists d fd, DroppedTerms (fermi_act (mol_sq e nmo c v h g)) (op_act (ham s)) d fd) /\
  (forall a b, inner (2 * m) a (fermi_act (mol_sq e nmo c v h g) b) = inner (2 * m) (fermi_act (mol_sq e nmo c v h g) a) b) /\
  (forall I0 psi, (forall I, psi I <> C0 -> SameSymmetry m (skipn c ai) I0 I) -> forall I, fermi_act (mol_sq e nmo c v h g) psi I <> C0 -> SameSymmetry m (skipn c ai) I0 I).
Proof.
  intros [HS -> RO SI (kept & EJ)]. destruct (C84_molecular_hamiltonian srt HS e nmo c v h g RO) as (kept' & q & fd & d & E' & FN & DN & HH & _ & _ & EY & HA). rewrite EJ in E'. injection E' as _ <-.
  split; [exact HH|]. split; [exact EY|]. split; [exists d, fd; split; [exact DN|split; [exact FN|exact HA]]|]. split; [intros a b; apply (mol_hermitian e nmo c v h g RO); lia|]. exact (PropSector.C89_molecular_hamiltonian e nmo c v h g ai SI).
Qed.

(** ---- PQE ---- *)
(** F is the electronic Hamiltonian of the active space.  The PQE state phi with energy E satisfies
    |F phi - E phi| <= |residuals| + |dropped terms phi|, and the same bounds the error of E
    relative to any eigenvalue of F times the overlap of phi with the eigenvector *)
Theorem C93_molecule_partial : forall srt srt' o s m R irreps max ts rs e nmo c v h g, legal_sort srt' -> FullPool srt' o s m R (skipn c irreps) max -> PqeProblem o s m ->
  MolecularProblem srt s m e nmo c v h g irreps -> Admissible s (2 * m) ts -> Residuals s (2 * m) ts rs ->
  let F := fermi_act (mol_sq e nmo c v h g) in
  exists phi E d fd, exp_product (pqe_factors s ts) (reference s) phi /\ IsAnsatzEnergy s (2 * m) ts E /\ DroppedTerms F (op_act (ham s)) d fd /\
    (forall I, phi I <> C0 -> SameSymmetry m (skipn c irreps) (N.to_nat R) I) /\
    let bound := (sqrt (square_norm rs) + norm (2 * m) (sadd (op_act d phi) (fermi_act fd phi)))%R in
    (norm (2 * m) (fun I => F phi I - RtoC E * phi I)%C <= bound)%R /\
    forall chi lambda, inner (2 * m) chi chi = C1 -> (forall I, I < 2 ^ (2 * m) -> F chi I = (RtoC lambda * chi I)%C) ->
      (Rabs (E - lambda) * Cabs (inner (2 * m) chi phi) <= bound)%R.
Proof.
  intros srt srt' o s m R irr max ts rs e nmo c v h g HS HP HPP HM HA HR F. destruct (molecular_facts _ _ _ _ _ _ _ _ _ _ HM) as (_ & _ & (d & fd & HD) & SA & KS). destruct (C93_sector_variance_partial srt' o s m R (skipn c irr) max ts rs HS HP HPP HA HR) as (phi & E & X1 & X2 & X3 & X4 & V).
  exists phi, E, d, fd. split; [exact X1|]. split; [now exists phi|]. split; [exact HD|]. split; [exact X4|]. intros bound.
  assert (G : (norm (2 * m) (fun I => F phi I - RtoC E * phi I)%C <= bound)%R).
  { unfold bound. rewrite <- V. apply (sector_split (in_sector m (skipn c irr) R) (2 * m) F (op_act (ham s)) (fun psi => sadd (op_act d psi) (fermi_act fd psi))); [apply HD|intros I HI; apply in_sector_same; now apply X4|]. intros I HI. apply in_sector_same. exact (KS _ phi X4 I HI). }
  split; [exact G|]. intros chi lam Hchi HE. eapply Rle_trans; [|exact G]. apply eigen_overlap; assumption.
Qed.
Print Assumptions C93_molecule_partial.
(** ---- SPQE ---- *)
(** the result of a run of SPQE *)
Theorem C94_molecule_partial : forall srt L o so sy s m refb R r irreps e nmo c v h g, SpqeObject L o sy s m refb R -> FullSpqePool sy m R -> sy_irreps sy = skipn c irreps ->
  MolecularProblem srt s m e nmo c v h g irreps -> ReturnsAPoint (minimize L) \/ is_jacobi_run o = true -> sp_dt so <> 0%R ->
  spqe_full_run L o so sy s = Ok r -> SpqeAnsatz s m R (sr_pool r) (sr_tops r) (sr_tamps r) ->
  let F := fermi_act (mol_sq e nmo c v h g) in
  exists phi rs rest d fd, exp_product (spqe_factors s (sr_pool r) (sr_tops r) (sr_tamps r)) (ket (N.to_nat R)) phi /\ inner (2 * m) phi phi = C1 /\ sr_Egs r = energy (2 * m) (op_act (ham s)) phi /\
    ExactResiduals s m R (sr_pool r) (sr_tops r) (sr_tamps r) rs /\ DroppedTerms F (op_act (ham s)) d fd /\ (0 <= rest)%R /\
    (sr_converged r = true -> rest = 0%R \/ (rest < spqe_thresh so * spqe_thresh so + INR (length (sr_pool r) - length (sr_tops r)) * step_error s (sp_dt so))%R) /\
    let bound := (sqrt (sum_squares rs + rest) + norm (2 * m) (sadd (op_act d phi) (fermi_act fd phi)))%R in
    (norm (2 * m) (fun I => F phi I - RtoC (sr_Egs r) * phi I)%C <= bound)%R /\
    forall chi lambda, inner (2 * m) chi chi = C1 -> (forall I, I < 2 ^ (2 * m) -> F chi I = (RtoC lambda * chi I)%C) ->
      (Rabs (sr_Egs r - lambda) * Cabs (inner (2 * m) chi phi) <= bound)%R.
Proof.
  intros srt L o so sy s m refb R r irr e nmo c v h g HO HFu HI HM HMin Hdt ER HU F. destruct (molecular_facts _ _ _ _ _ _ _ _ _ _ HM) as (_ & _ & (d & fd & HD) & SA & KS).
  destruct (C94_run_sector_partial L o so sy s m refb R r HO HFu HMin Hdt ER HU) as (phi & rs & rest & X1 & X2 & X3 & X4 & X5 & X6 & V & HC). exists phi, rs, rest, d, fd. split; [exact X1|]. split; [exact X2|]. split; [exact X3|]. split; [exact X4|]. split; [exact HD|]. split; [exact X5|]. split; [exact HC|]. intros bound. rewrite HI in X6, V.
  assert (G : (norm (2 * m) (fun I => F phi I - RtoC (sr_Egs r) * phi I)%C <= bound)%R).
  { unfold bound. rewrite <- V. apply (sector_split (in_sector m (skipn c irr) R) (2 * m) F (op_act (ham s)) (fun psi => sadd (op_act d psi) (fermi_act fd psi))); [apply HD|intros I HI'; apply in_sector_same; now apply X6|]. intros I HI'. apply in_sector_same. exact (KS _ phi X6 I HI'). }
  split; [exact G|]. intros chi lam Hchi HE. eapply Rle_trans; [|exact G]. apply eigen_overlap; assumption.
Qed.
Print Assumptions C94_molecule_partial.

(** ---- non-vacuity: two orbitals and two electrons with the integrals of C83 ---- *)
Lemma no_irreps (irr : list N) h g : Forall (fun x => x = 0%N) irr -> SectorMol.SymmetricIntegrals irr h g.
Proof.
  intros HF. assert (Z : forall p, nth p irr 0%N = 0%N). { intros p. destruct (Nat.lt_ge_cases p (length irr)) as [L|L]; [rewrite Forall_forall in HF; apply HF; now apply nth_In|now apply nth_overflow]. }
  split; [intros p q NE; elim NE; now rewrite !Z|intros p q r s NE; elim NE; now rewrite !Z].
Qed.
Definition mol_object_example (q : qop) (pl : sqpool) : ucc := mkUcc (new_computer 4) (StateProofs.xgates 0 [1; 1; 0; 0]) q "SD" false false 1 pl [] [].
Example C93_molecule_nonvacuous : exists q pl, let s := mol_object_example q pl in FullPool PropSQ.isort full_options_example s 2 3 (skipn 0 []) 2 /\ PqeProblem full_options_example s 2 /\
  MolecularProblem PropSQ.isort s 2 (1/2) 2 0 0 h_demo g_demo [] /\ pl <> [] /\ Admissible s (2 * 2) (repeat 1%R (length pl)) /\ exists rs, Residuals s (2 * 2) (repeat 1%R (length pl)) rs.
Proof.
  destruct (C84_molecular_hamiltonian PropSQ.isort PropSQ.isort_legal (1/2) 2 0 0 h_demo g_demo demo_real) as (kept & q & fd & d & EJ & _ & _ & HH & _). change (2 * (2 - 0 - 0)) with (2 * 2) in HH. exists q.
  destruct C93_nonvacuous as (pl & (HR & HF & HI & HAu & HT & HMx & HS) & _ & NE & _). exists pl. intros s.
  assert (HP : FullPool PropSQ.isort full_options_example s 2 3 (skipn 0 []) 2) by (split; [exact HR|]; split; [exact HF|]; split; [exact HI|]; split; [exact HAu|]; split; [exact HT|]; split; [exact HMx|]; exact HS).
  assert (HPP : PqeProblem full_options_example s 2) by (split; [apply StateProofs.refprep_eq|]; split; [reflexivity|]; split; [reflexivity|]; split; [exact HH|cbn; lia]).
  destruct (full_object _ _ _ _ _ _ _ PropSQ.isort_legal HP HPP) as (HO & RK). assert (HA : Admissible s (2 * 2) (repeat 1%R (length pl))) by (apply (ones_admissible full_options_example s); [exact HO|reflexivity|reflexivity]).
  split; [exact HP|]. split; [exact HPP|]. split; [constructor; [exact PropSQ.isort_legal|reflexivity|exact demo_real|apply no_irreps; constructor|exists kept; exact EJ]|]. split; [exact NE|]. split; [exact HA|].
  destruct (pqe_setup example_libraries full_options_example s) as (D0 & pl0 & dt0 & _ & _ & _ & _ & _ & _ & _ & GR); [split; [exact PropSQ.isort_legal|split; [exact tsort_legal|exact Logic.I]]|exact HO|]. destruct (GR _ HA) as (rs & HRs & _). exists rs. exact HRs.
Qed.
(** the object, the pool and the Hamiltonian; a run of such an object: C91_nonvacuous *)
Example C94_molecule_nonvacuous : exists q, let s := mkUcc (new_computer 4) (StateProofs.xgates 0 [1; 1; 0; 0]) q "2" false false 2 [] [] [] in
  SpqeObject ex_spqe_libraries ex_spqe_run ex_system s 2 [true; true; false; false] 3 /\ FullSpqePool ex_system 2 3 /\ sy_irreps ex_system = skipn 0 [0; 0]%N /\
  MolecularProblem PropSQ.isort s 2 (1/2) 2 0 0 h_demo g_demo [0; 0]%N.
Proof.
  destruct (C84_molecular_hamiltonian PropSQ.isort PropSQ.isort_legal (1/2) 2 0 0 h_demo g_demo demo_real) as (kept & q & fd & d & EJ & _ & _ & HH & _ & _ & EY & _). change (2 * (2 - 0 - 0)) with (2 * 2) in HH. exists q. intros s.
  destruct ex_object_ok as [A1 A2 A3 A4 A5 A6 A7 A8 A9 A10 A11 A12 A13]. split; [constructor; try assumption|]. split; [apply C94_nonvacuous|]. split; [reflexivity|].
  constructor; [exact PropSQ.isort_legal|reflexivity|exact demo_real|apply no_irreps; repeat constructor|exists kept; exact EJ].
Qed.
