(** C67: the spin operators of utils/spin_operators.py.
    C68: symmetry_check of utils/symmetry_analysis.py. *)
From Coq Require Import Reals String List Arith Lia Bool Lra Permutation ZArith NArith.
From Verif Require Import CBase Result Bits Spec OpSpec SQSpec GateModel ComputerModel SafeProofs LibProofs CircuitModel PauliProofs OperatorModel OperatorProofs MeasureModel SQModel JWProofs PropOperator PropSQ PropMeasure SQPoolModel SQPoolSpec SpinModel SpinSpec SpinProofs SpinOps RealOps SymmProofs SymmSums.
From Verif Require Import SimProofs PyApply.
From Verif Require QftProofs.
Import ListNotations.
Local Open Scope C_scope.

(** ---- C67 ---- *)
(** q is a simplified Pauli operator on n qubits that acts as f *)
Definition Implements (n : nat) (q : qop) (f : state -> state) : Prop :=
  Terms Canonical q /\ NoDup (map snd q) /\ Terms (Forall (fun g => gtarget g < n)%nat) q /\ Forall (fun t => 1e-12 < Cabs (fst t))%R q /\ forall psi, op_act q psi == f psi.
Lemma half_even m : ((2 * m + 1) / 2 = m)%nat.
Proof. replace (2 * m + 1)%nat with (1 + m * 2)%nat by lia. rewrite Nat.div_add by lia. reflexivity. Qed.
Lemma half_odd m : ((2 * m + 1 + 1) / 2 = m + 1)%nat.
Proof. replace (2 * m + 1 + 1)%nat with ((m + 1) * 2)%nat by lia. apply Nat.div_mul. lia. Qed.
Lemma implements k m q f : good_op k m q f -> Implements (2 * m) q f.
Proof. intros (H1 & H2 & H3 & _ & H5 & H6). split; [apply terms_canonical, H1|]. auto. Qed.
Theorem C67_spin_z : forall srt m, legal_sort srt -> exists q, total_spin_z srt (2 * m) = Ok q /\ Implements (2 * m) q (spin_z m).
Proof. intros srt m H. destruct (spin_z_op srt (2 * m) H) as (q & E & G). rewrite half_even in G. exists q. split; [exact E|]. eapply implements, G. Qed.
Print Assumptions C67_spin_z.
Theorem C67_ladders : forall srt m, legal_sort srt -> exists l r, total_spin_lowering srt (2 * m) = Ok l /\ total_spin_raising srt (2 * m) = Ok r /\
  Implements (2 * m) l (spin_minus m) /\ Implements (2 * m) r (spin_plus m).
Proof.
  intros srt m H. destruct (spin_minus_op srt (2 * m) H) as (q & E & G). destruct (spin_plus_op srt (2 * m) H) as (r & E' & G'). rewrite half_even in G, G'.
  exists q, r. split; [exact E|]. split; [exact E'|]. split; eapply implements; eassumption.
Qed.
Print Assumptions C67_ladders.
Theorem C67_spin_squared : forall srt m, legal_sort srt -> exists q, total_spin_squared srt (2 * m) = Ok q /\ Implements (2 * m) q (spin_squared m).
Proof. intros srt m H. destruct (spin_squared_op srt (2 * m) H) as (q & E & G). rewrite half_even in G. exists q. split; [exact E|]. eapply implements, G. Qed.
Print Assumptions C67_spin_squared.
(** the operators returned satisfy the angular-momentum algebra *)
Theorem C67_algebra : forall srt m z l r s, legal_sort srt -> total_spin_z srt (2 * m) = Ok z -> total_spin_lowering srt (2 * m) = Ok l -> total_spin_raising srt (2 * m) = Ok r -> total_spin_squared srt (2 * m) = Ok s ->
  forall psi,
  (forall I, op_act z (op_act r psi) I - op_act r (op_act z psi) I = op_act r psi I) /\
  (forall I, op_act z (op_act l psi) I - op_act l (op_act z psi) I = - op_act l psi I) /\
  (forall I, op_act r (op_act l psi) I - op_act l (op_act r psi) I = RtoC 2 * op_act z psi I) /\
  (forall I, op_act s (op_act z psi) I = op_act z (op_act s psi) I) /\
  (forall n phi, (2 * m <= n)%nat -> inner n phi (op_act r psi) = inner n (op_act l phi) psi) /\
  (forall n phi, (2 * m <= n)%nat -> inner n phi (op_act s psi) = inner n (op_act s phi) psi).
Proof.
  intros srt m z l r s HS Ez El Er Es psi.
  destruct (C67_spin_z srt m HS) as (z' & Ez' & (_ & _ & _ & _ & Az)). destruct (C67_ladders srt m HS) as (l' & r' & El' & Er' & (_ & _ & _ & _ & Al) & (_ & _ & _ & _ & Ar)). destruct (C67_spin_squared srt m HS) as (s' & Es' & (_ & _ & _ & _ & As)).
  rewrite Ez in Ez'. injection Ez' as <-. rewrite El in El'. injection El' as <-. rewrite Er in Er'. injection Er' as <-. rewrite Es in Es'. injection Es' as <-.
  assert (Z2 : forall a b, a == b -> forall I, op_act z a I = spin_z m b I) by (intros a b Q I; rewrite (Az a I); now apply spin_z_ext).
  assert (L2 : forall a b, a == b -> forall I, op_act l a I = spin_minus m b I) by (intros a b Q I; rewrite (Al a I); now apply spin_minus_ext).
  assert (R2 : forall a b, a == b -> forall I, op_act r a I = spin_plus m b I) by (intros a b Q I; rewrite (Ar a I); now apply spin_plus_ext).
  assert (S2 : forall a b, a == b -> forall I, op_act s a I = spin_squared m b I) by (intros a b Q I; rewrite (As a I); now apply sq_respects).
  split; [|split; [|split; [|split; [|split]]]].
  - intros I. rewrite (Z2 _ _ (Ar psi)), (R2 _ _ (Az psi)), (Ar psi I), z_plus. ring.
  - intros I. rewrite (Z2 _ _ (Al psi)), (L2 _ _ (Az psi)), (Al psi I), z_minus. ring.
  - intros I. rewrite (R2 _ _ (Al psi)), (L2 _ _ (Ar psi)), (Az psi I), plus_minus. ring.
  - intros I. rewrite (S2 _ _ (Az psi)), (Z2 _ _ (As psi)).
    set (A := spin_minus m (spin_plus m psi)).
    assert (E : spin_z m A I = spin_minus m (spin_plus m (spin_z m psi)) I).
    { unfold A. rewrite z_minus. replace (spin_minus m (spin_z m (spin_plus m psi)) I) with (spin_minus m (sadd (spin_plus m (spin_z m psi)) (spin_plus m psi)) I); [rewrite spin_minus_add; ring|].
      apply spin_minus_ext. intros J. unfold sadd. symmetry. apply z_plus. }
    rewrite spin_squared_eq. transitivity (spin_z m (fun J => A J + spin_z m psi J + spin_z m (spin_z m psi) J) I).
    + rewrite <- E. clear E. clearbody A. unfold spin_z. ring.
    + apply spin_z_ext. intros J. symmetry. apply spin_squared_eq.
  - intros n phi Hn. rewrite (inner_ext n phi phi _ _ (seq_refl phi) (Ar psi)), (inner_ext n _ _ psi psi (Al phi) (seq_refl psi)). now apply inner_plus.
  - intros n phi Hn. rewrite (inner_ext n phi phi _ _ (seq_refl phi) (As psi)), (inner_ext n _ _ psi psi (As phi) (seq_refl psi)). now apply sq_herm.
Qed.
Print Assumptions C67_algebra.
(** a determinant whose spin-down electrons are all paired is an eigenstate with S = S_z *)
Theorem C67_high_spin : forall srt m s D, legal_sort srt -> total_spin_squared srt (2 * m) = Ok s ->
  (forall p, (p < m)%nat -> bit D (2 * p + 1) = true -> bit D (2 * p) = true) ->
  op_act s (ket D) == sscale (RtoC (sz_value m D * (sz_value m D + 1))) (ket D).
Proof.
  intros srt m s D HS E H I. destruct (C67_spin_squared srt m HS) as (s' & E' & (_ & _ & _ & _ & As)). rewrite E in E'. injection E' as <-.
  rewrite (As (ket D) I). apply (squared_high_spin m D H I).
Qed.
Print Assumptions C67_high_spin.
(** for an odd number of qubits the operators are those of one qubit more *)
Theorem C67_odd : forall srt m, legal_sort srt ->
  total_spin_z srt (2 * m + 1) = total_spin_z srt (2 * (m + 1)) /\ total_spin_lowering srt (2 * m + 1) = total_spin_lowering srt (2 * (m + 1)) /\
  total_spin_raising srt (2 * m + 1) = total_spin_raising srt (2 * (m + 1)) /\ total_spin_squared srt (2 * m + 1) = total_spin_squared srt (2 * (m + 1)).
Proof.
  intros srt m H. assert (R : range2 (2 * m + 1) = range2 (2 * (m + 1))) by (rewrite !range2_half; rewrite half_odd, half_even; reflexivity).
  assert (E1 : total_spin_z srt (2 * m + 1) = total_spin_z srt (2 * (m + 1))) by (unfold total_spin_z, sq_spin_z; now rewrite R).
  assert (E2 : total_spin_lowering srt (2 * m + 1) = total_spin_lowering srt (2 * (m + 1))) by (unfold total_spin_lowering, sq_spin_lowering; now rewrite R).
  assert (E3 : total_spin_raising srt (2 * m + 1) = total_spin_raising srt (2 * (m + 1))) by (unfold total_spin_raising, sq_spin_raising; now rewrite R).
  repeat split; try assumption. unfold total_spin_squared. now rewrite E1, E2, E3.
Qed.
Print Assumptions C67_odd.
Example C67_nonvacuous : (exists q, total_spin_squared isort 4 = Ok q /\ op_act q (ket 5) == sscale (RtoC 2) (ket 5)) /\
  (exists q, total_spin_z isort 4 = Ok q /\ op_act q (ket 1) == sscale (RtoC (1/2)) (ket 1)) /\ spin_minus 1 (ket 1) 2 <> C0.
Proof.
  split; [|split].
  - destruct (C67_spin_squared isort 2 isort_legal) as (q & E & _). exists q. split; [exact E|]. intros I. rewrite (C67_high_spin isort 2 q 5 isort_legal E).
    + unfold sscale, sz_value. change (n_up 2 5) with 2%nat. change (n_down 2 5) with 0%nat. f_equal. apply C_ext; cbn; field.
    + intros [|[|p]] Hp; [discriminate|discriminate|lia].
  - destruct (C67_spin_z isort 2 isort_legal) as (q & E & (_ & _ & _ & _ & A)). exists q. split; [exact E|]. intros I. rewrite (A (ket 1) I). rewrite (spin_z_ket 2 1 I). unfold sscale, sz_value. change (n_up 2 1) with 1%nat. change (n_down 2 1) with 0%nat. f_equal. apply C_ext; cbn; field.
  - unfold spin_minus, SaSpec.spin_minus. cbn. intros Q. apply (f_equal Re) in Q. cbn in Q. lra.
Qed.

(** ---- C68 ---- *)
(** expectation value of a Hermitian operator and its variance <f^2> - <f>^2 *)
Definition mean (n : nat) (f : state -> state) (psi : state) : R := Re (inner n psi (f psi)).
Definition variance (n : nat) (f : state -> state) (psi : state) : R := (mean n (fun x => f (f x)) psi - mean n f psi * mean n f psi)%R.
(** parallel_enabled() or not; the schedule of an OpenMP build is any legal one *)
Definition ValidBuild (n : nat) (par : option schedule) : Prop := match par with None => True | Some sched => legal_schedule sched /\ (1 <= n)%nat end.
(** the irrep (Cotton ordering) of determinant I *)
Definition determinant_irrep (n : nat) (irreps : list N) (I : nat) : N := total_irrep irreps (filter (bit I) (seq 0 n)).
Theorem C68_symmetry_check : forall par srt m q k orb_irreps target_N target_two_Sz target_irrep,
  legal_sort srt -> ValidBuild (2 * m) par -> wf_computer q -> nqubit q = (2 * m)%nat -> (m <= length orb_irreps)%nat -> Forall (fun x => x < 2 ^ k)%N orb_irreps ->
  let psi := psi_of q in let n := (2 * m)%nat in
  exists r q', symmetry_check par srt n q (2 ^ N.to_nat k) orb_irreps target_N target_two_Sz target_irrep = Ok (r, q') /\ Unchanged q q' /\
    sy_N r = (mean n (number n) psi, variance n (number n) psi) /\
    sy_Sz r = (mean n (spin_z m) psi, variance n (spin_z m) psi) /\
    sy_S2 r = (mean n (spin_squared m) psi, variance n (spin_squared m) psi) /\
    w_N (sy_weights r) = map (fun N => sector_weight n psi (fun I => Nat.eqb (n_electrons n I) N)) (seq 0 (n + 1)) /\
    w_Sz (sy_weights r) = map (fun i => sector_weight n psi (fun I => Z.eqb (two_sz m I) (Z.of_nat i - Z.of_nat m))) (seq 0 (n + 1)) /\
    w_irrep (sy_weights r) = map (fun g => sector_weight n psi (fun I => N.eqb (determinant_irrep n orb_irreps I) (N.of_nat g))) (seq 0 (2 ^ N.to_nat k)) /\
    w_target (sy_weights r) = sector_weight n psi (fun I => (Nat.eqb (n_electrons n I) target_N && Z.eqb (two_sz m I) target_two_Sz && N.eqb (determinant_irrep n orb_irreps I) target_irrep)%bool).
Proof.
  intros par srt m q k irr tN tS ti HS HV W HN HL HI psi n.
  assert (D1 : respects (number n) /\ real_map (number n) /\ hermitian_map n (number n)) by (change (number n) with (diagonal (fun I => INR (n_electrons n I))); repeat split; [apply diag_respects|apply diag_real|apply diag_herm]).
  assert (D2 : respects (spin_z m) /\ real_map (spin_z m) /\ hermitian_map n (spin_z m)) by (change (spin_z m) with (diagonal (sz_value m)); repeat split; [apply diag_respects|apply diag_real|apply diag_herm]).
  unfold symmetry_check. rewrite number_operator_eq. cbn [bind].
  destruct (mean_var n par q (num_op n) (number n) 1 HV W HN ltac:(lia) (num_canonical n) (num_reg n) (num_dy n) (num_even n) (num_act n) (proj1 D1) (proj1 (proj2 D1)) (proj2 (proj2 D1))) as (q1 & E1 & N1 & C1' & W1).
  rewrite E1. cbn [bind fst snd].
  destruct (spin_z_op srt n HS) as (z & Ez & (z1 & z2 & z3 & z4 & z5 & z6)). unfold n in z5, z6. rewrite half_even in z5, z6. fold n in z5. rewrite Ez. cbn [bind].
  assert (NZ : forall o : qop, Forall (fun t => 1e-12 < Cabs (fst t))%R o -> Forall (fun t => fst t <> C0) o) by (intros o Q; eapply Forall_impl; [|exact Q]; cbn beta; intros t Ht Hz; rewrite Hz, Cabs_C0 in Ht; lra).
  assert (P1 : psi_of q1 = psi) by (unfold psi, psi_of; now rewrite C1').
  destruct (mean_var n par q1 z (spin_z m) 3 HV W1 (eq_trans N1 HN) ltac:(lia) z1 z5 z4 (even_Y n z (spin_z m) z1 z2 z5 (NZ z z3) z6 (proj1 (proj2 D2)) (proj2 (proj2 D2))) z6 (proj1 D2) (proj1 (proj2 D2)) (proj2 (proj2 D2))) as (q2 & E2 & N2 & C2' & W2).
  rewrite E2. cbn [bind fst snd].
  destruct (spin_squared_op srt n HS) as (s & Es & (s1 & s2 & s3 & s4 & s5 & s6)). unfold n in s5, s6. rewrite half_even in s5, s6. fold n in s5. rewrite Es. cbn [bind].
  assert (P2 : psi_of q2 = psi) by (unfold psi, psi_of; now rewrite C2', C1').
  destruct (mean_var n par q2 s (spin_squared m) 6 HV W2 (eq_trans N2 (eq_trans N1 HN)) ltac:(lia) s1 s5 s4 (even_Y n s (spin_squared m) s1 s2 s5 (NZ s s3) s6 (sq_real m) (sq_herm m)) s6 (sq_respects m) (sq_real m) (sq_herm m)) as (q3 & E3 & N3 & C3' & W3).
  rewrite E3. cbn [bind fst snd].
  assert (P3 : psi_of q3 = psi) by (unfold psi, psi_of; now rewrite C3', C2', C1').
  set (nir := (2 ^ N.to_nat k)%nat).
  assert (RI : forall I, (N.to_nat (irrep_of m irr I) < nir)%nat).
  { intros I. unfold irrep_of, nir. pose proof (total_small k irr (filter (bit I) (seq 0 (2 * m))) HI) as Q. replace (2 ^ N.to_nat k)%nat with (N.to_nat (2 ^ k)) by (rewrite N2Nat.inj_pow; reflexivity). lia. }
  assert (R0 : forall K, repeat 0%R K = map (fun _ => 0%R) (seq 0 K)) by (intros K; rewrite <- (seq_length K 0) at 1; generalize (seq 0 K); induction l as [|x l IH]; [reflexivity|cbn [length repeat map]; now rewrite IH]).
  assert (W0 : mkWeights 0 (repeat 0%R (n + 1)) (repeat 0%R (n + 1)) (repeat 0%R nir) = weights_of (psi_of q3) m irr nir tN tS ti []) by (rewrite !R0; reflexivity).
  rewrite W0. unfold n. rewrite (weights_foreach q3 m irr nir tN tS ti W3); [|congruence|exact HL|exact RI|apply Forall_forall; intros I Q; apply in_seq in Q; lia].
  cbn [bind app]. eexists. exists q3. split; [reflexivity|]. split; [split; [congruence|]; split; [congruence|exact W3]|]. cbn [sy_N sy_Sz sy_S2 sy_weights weights_of w_N w_Sz w_irrep w_target].
  rewrite P1, P2, P3. repeat split.
Qed.
Print Assumptions C68_symmetry_check.
(** what the numbers mean: the weights of each family add up to the squared norm, the means
    are the weighted averages, and a variance is zero exactly for an eigenstate *)
Definition total (l : list R) : R := fold_right Rplus 0%R l.
Theorem C68_weights_total : forall m psi, let n := (2 * m)%nat in
  total (map (fun N => sector_weight n psi (fun I => Nat.eqb (n_electrons n I) N)) (seq 0 (n + 1))) = Re (inner n psi psi) /\
  total (map (fun i => sector_weight n psi (fun I => Z.eqb (two_sz m I) (Z.of_nat i - Z.of_nat m))) (seq 0 (n + 1))) = Re (inner n psi psi) /\
  mean n (number n) psi = total (map (fun N => INR N * sector_weight n psi (fun I => Nat.eqb (n_electrons n I) N))%R (seq 0 (n + 1))) /\
  mean n (spin_z m) psi = total (map (fun i => (- INR n * 0.25 + 0.5 * INR i) * sector_weight n psi (fun I => Z.eqb (two_sz m I) (Z.of_nat i - Z.of_nat m)))%R (seq 0 (n + 1))) /\
  forall k irr, Forall (fun x => x < 2 ^ k)%N irr -> total (map (fun g => sector_weight n psi (fun I => N.eqb (determinant_irrep n irr I) (N.of_nat g))) (seq 0 (2 ^ N.to_nat k))) = Re (inner n psi psi).
Proof.
  intros m psi n.
  assert (B1 : forall I, (n_electrons n I < n + 1)%nat) by (intros I; unfold n_electrons; pose proof (filter_length_le (bit I) (seq 0 n)) as Q; rewrite seq_length in Q; lia).
  set (kap := fun I => (m + n_up m I - n_down m I)%nat).
  assert (BK : forall I, (n_up m I <= m /\ n_down m I <= m)%nat) by (intros I; split; [apply n_up_le|apply n_down_le]).
  assert (B2 : forall I, (kap I < n + 1)%nat) by (intros I; destruct (BK I); unfold kap, n; lia).
  assert (ES : forall i, (fun I => Z.eqb (two_sz m I) (Z.of_nat i - Z.of_nat m)) = (fun I => Nat.eqb (kap I) i)).
  { intros i. apply FunctionalExtensionality.functional_extensionality. intros I. destruct (BK I). unfold two_sz, kap. destruct (Nat.eqb_spec (m + n_up m I - n_down m I) i); [apply Z.eqb_eq|apply Z.eqb_neq]; lia. }
  split; [|split; [|split; [|split]]].
  - exact (norm_sectors n psi (n_electrons n) (n + 1) B1).
  - rewrite <- (norm_sectors n psi kap (n + 1) B2). unfold total, Rsum. f_equal. apply map_ext. intros i. rewrite ES. reflexivity.
  - unfold mean. change (number n) with (diagonal (fun I => INR (n_electrons n I))). rewrite diag_mean. symmetry. exact (partition_sum psi (n_electrons n) INR (n + 1) (seq 0 (2 ^ n)) B1).
  - unfold mean. change (spin_z m) with (diagonal (sz_value m)). rewrite diag_mean.
    transitivity (Rsum (map (fun I => (- INR n * 0.25 + 0.5 * INR (kap I)) * wt psi I)%R (seq 0 (2 ^ n)))).
    + apply Rsum_ext. intros I _. f_equal. destruct (BK I). unfold sz_value, kap, n. rewrite minus_INR, plus_INR by lia. rewrite mult_INR. cbn [INR]. lra.
    + rewrite <- (partition_sum psi kap (fun i => - INR n * 0.25 + 0.5 * INR i)%R (n + 1) (seq 0 (2 ^ n)) B2). unfold total, Rsum. f_equal. apply map_ext. intros i. rewrite ES. reflexivity.
  - intros k irr HI. set (gam := fun I => N.to_nat (determinant_irrep n irr I)).
    assert (B3 : forall I, (gam I < 2 ^ N.to_nat k)%nat).
    { intros I. unfold gam, determinant_irrep. pose proof (total_small k irr (filter (bit I) (seq 0 n)) HI) as Q. replace (2 ^ N.to_nat k)%nat with (N.to_nat (2 ^ k)) by (rewrite N2Nat.inj_pow; reflexivity). lia. }
    rewrite <- (norm_sectors n psi gam (2 ^ N.to_nat k) B3). unfold total, Rsum. f_equal. apply map_ext. intros g. unfold sector_weight, wsum. do 2 f_equal. apply filter_ext. intros I. unfold gam.
    destruct (Nat.eqb_spec (N.to_nat (determinant_irrep n irr I)) g); [apply N.eqb_eq|apply N.eqb_neq]; lia.
Qed.
Print Assumptions C68_weights_total.
Theorem C68_variances : forall m psi, let n := (2 * m)%nat in inner n psi psi = C1 ->
  forall f, f = number n \/ f = spin_z m \/ f = spin_squared m ->
  (0 <= variance n f psi)%R /\ (variance n f psi = 0%R <-> forall I, (I < 2 ^ n)%nat -> f psi I = RtoC (mean n f psi) * psi I).
Proof.
  intros m psi n HN f Hf. assert (HH : hermitian_map n f /\ respects f).
  { destruct Hf as [->|[->| ->]]; split; [apply (diag_herm (fun I => INR (n_electrons n I)))|apply (diag_respects (fun I => INR (n_electrons n I)))|apply (diag_herm (sz_value m))|apply (diag_respects (sz_value m))|apply sq_herm|apply sq_respects]. }
  destruct HH as [HH _]. pose proof (variance_norm n f psi HH HN) as V. cbv zeta in V. set (d := fun I => f psi I - RtoC (Re (inner n psi (f psi))) * psi I) in V. fold (mean n f psi) in V, d. change (Re (inner n psi (f (f psi)))) with (mean n (fun x => f (f x)) psi) in V. fold (variance n f psi) in V.
  assert (VE : variance n f psi = Re (inner n d d)) by (rewrite V; reflexivity). split; [rewrite VE; apply norm_nonneg|]. split.
  - intros Z I HI. rewrite VE in Z. pose proof (norm_zero n d Z I HI) as Q. unfold d in Q. replace (f psi I) with (f psi I - RtoC (mean n f psi) * psi I + RtoC (mean n f psi) * psi I) by ring. rewrite Q. ring.
  - intros A. rewrite VE. unfold inner. transitivity (Re (Csum (fun _ => C0) (seq 0 (2 ^ n)))); [f_equal; apply Csum_ext; intros I Q; apply in_seq in Q; unfold d; rewrite (A I) by lia; ring|]. rewrite Csum_zero by reflexivity. reflexivity.
Qed.
Print Assumptions C68_variances.
Example C68_nonvacuous : wf_computer (new_computer 4) /\ nqubit (new_computer 4) = (2 * 2)%nat /\ Forall (fun x => x < 2 ^ 1)%N [0; 1]%N /\ ValidBuild 4 None /\ inner 4 (ket 5) (ket 5) = C1 /\ variance 4 (spin_squared 2) (ket 5) = 0%R /\ two_sz 2 5 = 2%Z.
Proof.
  split; [apply new_computer_wf|]. split; [reflexivity|]. split; [repeat constructor|]. split; [exact I|]. assert (HK : inner 4 (ket 5) (ket 5) = C1) by (rewrite QftProofs.inner_ket by (cbn; lia); reflexivity). split; [exact HK|]. split; [|reflexivity].
  apply (C68_variances 2 (ket 5) HK (spin_squared 2)); [now right; right|]. intros I _. rewrite (squared_high_spin 2 5); [|intros [|[|p]] Hp; [discriminate|discriminate|lia]]. unfold sscale, mean.
  f_equal. change (2 * 2)%nat with 4%nat. rewrite (inner_ext 4 (ket 5) (ket 5) _ _ (seq_refl _) (squared_high_spin 2 5 ltac:(intros [|[|p]] Hp; [discriminate|discriminate|lia]))). rewrite QftProofs.inner_ket by (cbn; lia). unfold sscale, ket. cbn [Nat.eqb]. apply C_ext; cbn; ring.
Qed.
