(** C93: with a pool of all excitations, vanishing PQE residuals mean an eigenstate of the
    Hamiltonian in the symmetry sector of the reference. *)
From Coq Require Import Reals String List Arith ZArith NArith Bool Lia Lra Sorted Permutation.
From Verif Require Import CBase Result Bits Spec OpSpec GateModel ComputerModel SafeProofs LibProofs CleanProofs SimProofs CircuitModel OperatorModel MeasureModel MeasureProofs SQSpec SQModel SQPoolSpec SQPoolModel SQPoolOps PyModel PyApply CompactModel CompactAct CompactApply CompactProofs ExpSpec ExpProofs AnsatzSpec AnsatzModel AnsatzProofs FermiProofs QkProofs SpinSpec SymmSums SectorProofs SectorPools ResModel ResProofs RunModel GradModel GradSpec GradCalc GradProofs GradAnsatz PropOperator PropMeasure PropPool PropAnsatz PropGrad PropRes PropSpin RunProofs PropRun PropPqe.
From Verif Require Import SparseNorm.
From Verif Require PauliProofs PenProofs QftProofs MomentSpace PropPqeEigen PropSector SaModel PropSQ StateProofs QiteNorm MomentProofs PointModel.
Import ListNotations.
Local Open Scope nat_scope.

(** ---- sums over a list of distinct indices ---- *)
Lemma sum_sub (f : nat -> C) N l : NoDup l -> (forall J, In J l -> J < N) -> (forall J, J < N -> ~ In J l -> f J = C0) -> Csum f (seq 0 N) = Csum f l.
Proof.
  intros ND HL HZ. set (rest := filter (fun J => negb (if in_dec Nat.eq_dec J l then true else false)) (seq 0 N)).
  assert (IR : forall J, In J rest <-> J < N /\ ~ In J l). { intros J. unfold rest. rewrite filter_In, in_seq. destruct (in_dec Nat.eq_dec J l); cbn [negb]; intuition (try lia; try discriminate). }
  assert (NR : NoDup rest) by (apply NoDup_filter, seq_NoDup).
  rewrite (Csum_perm f (seq 0 N) (l ++ rest)).
  - rewrite Csum_app, (Csum_zero f rest); [ring|]. intros J IJ. apply IR in IJ. now apply HZ.
  - apply NoDup_Permutation; [apply seq_NoDup| |].
    + clear HZ HL. induction ND as [|x l' Nx Nl IH]; [exact NR|]. cbn [app]. constructor.
      * intros X. apply in_app_or in X. destruct X as [X|X]; [now apply Nx|]. apply IR in X. apply (proj2 X). now left.
      * set (r2 := rest) in *. clearbody r2. apply LoopProofs.NoDup_app_disj; [exact Nl|exact NR|]. intros y Hy Hr. apply IR in Hr. apply (proj2 Hr). now right.
    + intros J. rewrite in_app_iff, IR, in_seq. destruct (in_dec Nat.eq_dec J l) as [Q|Q]; [specialize (HL J Q); intuition lia|intuition lia].
Qed.
Lemma unit_phase ph : ph = C1 \/ ph = (- C1)%C -> forall z, (Cconj (Cconj ph * z) * (Cconj ph * z) = Cconj z * z)%C.
Proof. intros [-> | ->] z; apply C_ext; cbn; ring. Qed.

Lemma forall2_strengthen {A B} (P : A -> Prop) (X : A -> B -> Prop) l l' : (forall a, In a l -> P a) -> Forall2 X l l' -> Forall2 (fun a b => P a /\ X a b) l l'.
Proof. intros HP F. induction F as [|a b l l' H F IH]; constructor; [split; [apply HP; now left|exact H]|]. apply IH. intros x Hx. apply HP. now right. Qed.
Lemma sum_chain {A} (g : nat -> C) (X : nat -> A -> Prop) (Y : A -> C -> Prop) : (forall J e r, X J e -> Y e r -> g J = RtoC (Cabs r * Cabs r)) ->
  forall dets pool, Forall2 X dets pool -> forall rs, Forall2 Y pool rs -> Csum g dets = RtoC (square_norm rs).
Proof.
  intros HG. induction 1 as [|J e dets pool HX _ IH]; intros rs F; inversion F as [|? r ? rs' HY F' E1 E2]; subst; [reflexivity|].
  rewrite Csum_cons, (HG J e r HX HY), (IH rs' F'). unfold square_norm. cbn [map fold_right]. apply C_ext; cbn; ring.
Qed.
(** ---- residuals of a pool that is complete within a symmetry sector ---- *)
Section Eigen.
Variables (o : run_options) (s : ucc) (ts : list R) (Same : nat -> nat -> Prop) (D0 : nat) (dets : list nat).
Notation n := (length (ref o)).
Hypotheses (HO : PqeObject o s) (HA : Admissible s n ts) (HD0 : reference s = ket D0).
Hypotheses (Refl : forall I, Same I I) (Trans : forall I J K, Same I J -> Same I K -> Same J K).
Hypothesis Keep : Forall (fun x => forall I0 psi, Within (Same I0) psi -> Within (Same I0) (snd x psi)) (pqe_factors s ts).
Variable inS : nat -> bool.
Hypothesis HS' : forall I, inS I = true <-> Same D0 I.
Definition restrict (v : state) : state := fun I => if inS I then v I else C0.
Hypotheses (ND : NoDup dets) (Comp : forall J, In J dets -> J < 2 ^ n /\ J <> D0 /\ Same D0 J) (Comp' : forall J, J < 2 ^ n -> J <> D0 -> ~ In J dets -> ~ Same D0 J).
Hypothesis Pool : Forall2 (fun J e => exists ph, TakesTo (qubit_excitations s) (snd e) D0 J ph /\ (ph = C1 \/ ph = (- C1)%C)) dets (pool s).
Lemma sector_variance rs : Residuals s n ts rs ->
  exists phi E, exp_product (pqe_factors s ts) (reference s) phi /\ inner n phi phi = C1 /\ E = energy n (op_act (ham s)) phi /\ Within (Same D0) phi /\
    normsq n (restrict (fun I => op_act (ham s) phi I - RtoC E * phi I)%C) = square_norm rs.
Proof.
  intros (D & RD & LD & FR). assert (D0 = D) as ->. { rewrite HD0 in RD. apply (f_equal (fun f => f D)) in RD. unfold ket in RD. rewrite Nat.eqb_refl in RD. destruct (Nat.eqb_spec D D0); [now symmetry|]. apply (f_equal Re) in RD. cbn in RD. lra. }
  pose proof HO as (Ln & ER & EU & EI & HH & Nt & T1 & FE). pose proof HA as (LT & FU).
  set (s' := vqe_start s). destruct (ansatz_built PropSQ.isort tsort s' n ts PropSQ.isort_legal tsort_legal Nt T1 ltac:(cbn [tops s' vqe_start]; now rewrite seq_length) FU) as (U & _ & AU & HU).
  change (forall psi, exp_product (pqe_factors s ts) psi (circ_act U psi)) in HU.
  set (H := op_act (ham s)) in *. assert (SA : self_adjoint n H) by (intros a b; exact (PenProofs.ham_hermitian n (ham s) HH n a b (le_n n))). destruct AU as (A1 & A2 & A3).
  set (phi := circ_act U (ket D)). set (E := energy n H phi). exists phi, E. rewrite RD.
  assert (NP : inner n phi phi = C1) by (unfold phi; rewrite (circ_preserves_inner n U _ _ A1 A3), QftProofs.inner_ket by exact LD; unfold ket; now rewrite Nat.eqb_refl).
  split; [apply HU|]. split; [exact NP|]. split; [reflexivity|].
  assert (SP : forall J, Within (Same J) (circ_act U (ket J))).
  { intros J. apply (product_within _ (pqe_factors s ts)) with (psi := ket J); [|apply HU|]. { eapply Forall_impl; [|exact Keep]. intros x Hx psi. apply Hx. } intros I HI. unfold ket in HI. destruct (Nat.eqb_spec I J) as [Q|Q]; [rewrite Q; apply Refl|now elim HI]. }
  assert (WP : Within (Same D) phi) by apply SP. split; [exact WP|].
  set (v := fun I => (H phi I - RtoC E * phi I)%C). set (v' := restrict v). assert (EV : v == sadd (H phi) (sscale (RtoC (- E)) phi)) by (intros I; unfold v, sadd, sscale; apply C_ext; cbn; ring).
  assert (IV : forall a, inner n a v = (inner n a (H phi) + RtoC (- E) * inner n a phi)%C) by (intros a; rewrite (inner_ext n a a v _ (fun I => eq_refl) EV), inner_add_r, inner_scale_r; reflexivity).
  assert (O1 : forall J, J < 2 ^ n -> J <> D -> inner n (circ_act U (ket J)) v = inner n (circ_act U (ket J)) (H phi)).
  { intros J LJ NJ. rewrite IV. assert (O : inner n (circ_act U (ket J)) phi = C0) by (unfold phi; rewrite (circ_preserves_inner n U _ _ A1 A3), QftProofs.inner_ket by exact LJ; unfold ket; destruct (Nat.eqb_spec J D); [contradiction|reflexivity]). rewrite O. ring. }
  set (w := circ_act (circuit_adjoint U) v').
  assert (WV0 : forall J, J < 2 ^ n -> w J = inner n (circ_act U (ket J)) v'). { intros J LJ. rewrite <- (QftProofs.inner_ket n J w LJ). unfold w. rewrite (inner_conj n (ket J)), <- (circ_inner_adjoint n U v' (ket J) A1 A3), <- inner_conj. reflexivity. }
  assert (Sym : forall I J, Same I J -> Same J I) by (intros I J HIJ; apply (Trans I); [exact HIJ|apply Refl]).
  assert (WV : forall J, J < 2 ^ n -> Same D J -> w J = inner n (circ_act U (ket J)) v).
  { intros J LJ SJ. rewrite (WV0 J LJ). unfold inner. apply Csum_ext. intros I _. unfold v', restrict. destruct (inS I) eqn:EI'; [reflexivity|]. destruct (Ceq_dec (circ_act U (ket J) I) C0) as [Q|Q]; [rewrite Q; apply C_ext; cbn; ring|]. exfalso. apply SP in Q. assert (X : Same D I) by (apply (Trans J); [now apply Sym|exact Q]). apply HS' in X. congruence. }
  assert (NV : inner n v' v' = inner n w w).
  { unfold w. rewrite <- (circ_inner_adjoint n U v' (circ_act (circuit_adjoint U) v') A1 A3). apply inner_ext; [intros I; reflexivity|]. intros I. symmetry. apply (circuit_adjoint_undoes U v' A1). }
  unfold normsq. rewrite NV. unfold inner. rewrite (sum_sub (fun I => Cconj (w I) * w I)%C (2 ^ n) dets ND).
  - rewrite (sum_chain _ (fun J e => (J < 2 ^ n /\ J <> D /\ Same D J) /\ exists ph, TakesTo (qubit_excitations s) (snd e) D J ph /\ (ph = C1 \/ ph = (- C1)%C)) (fun e r => Projection n H (pqe_factors s ts) D (act (qubit_excitations s) (snd e) (ket D)) r)) with (pool := pool s) (rs := rs); [reflexivity| |  |exact FR].
    + intros J e r ((LJ & NJ & SJ) & ph & TT & Hph) (phi0 & phimu & X1 & X2 & ->). assert (E0 : phi0 = phi) by (apply state_eq; exact (exp_product_unique _ _ _ _ X1 (HU (ket D)))). subst phi0.
      assert (Em : phimu == sscale ph (circ_act U (ket J))). { eapply seq_trans; [exact (exp_product_unique _ _ _ _ X2 (HU _))|]. eapply seq_trans; [apply circ_act_ext; exact TT|]. apply (PauliProofs.circ_act_scale U ph (ket J)). }
      rewrite (inner_ext n _ _ _ _ Em (fun I => eq_refl)), inner_scale_l, (WV J LJ SJ), (O1 J LJ NJ). rewrite <- (unit_phase ph Hph). set (z := (Cconj ph * _)%C). unfold Cabs. rewrite sqrt_sqrt by (unfold Cnorm2; nra). unfold Cnorm2. apply C_ext; cbn; ring.
    + apply forall2_strengthen; [exact Comp|exact Pool].
  - intros J IJ. now apply Comp.
  - intros J LJ NI. assert (w J = C0) as ->; [|ring]. destruct (Nat.eq_dec J D) as [->|NJ].
    + rewrite WV by (try exact LJ; apply Refl). fold phi. rewrite IV, (PropPqeEigen.real_phase n H phi SA). fold E. rewrite NP. apply C_ext; cbn; ring.
    + rewrite WV0 by exact LJ. specialize (Comp' J LJ NJ NI). apply (PropPqeEigen.inner_disjoint n (Same D)).
      * intros I HI HI'. apply SP in HI. apply Comp'. apply (Trans I); now apply Sym.
      * intros I HI. unfold v', restrict in HI. apply HS'. destruct (inS I); [reflexivity|now elim HI].
Qed.
End Eigen.
(** ---- determinants of a sector are excitations of the reference ---- *)
Lemma weight_orbitals w n D : weight w n (N.to_nat D) = wlist w (orbitals (occ D) n).
Proof.
  unfold weight. induction n as [|n IH]; [reflexivity|]. rewrite seq_S, filter_app. cbn [plus filter orbitals]. unfold wlist in *. rewrite map_app, fold_right_app. rewrite FermiProofs.occ_bit.
  assert (G : forall l z, fold_right Z.add z (map w l) = (fold_right Z.add 0 (map w l) + z)%Z) by (induction l as [|x l IHl]; intros z; cbn [map fold_right]; [lia|rewrite IHl; lia]).
  destruct (occ D n); cbn [map fold_right]; rewrite G, IH; lia.
Qed.
Lemma same_excited m irr R D max : (R < 2 ^ N.of_nat (2 * m))%N -> (D < 2 ^ N.of_nat (2 * m))%N -> D <> R -> SameSymmetry m irr (N.to_nat R) (N.to_nat D) ->
  (electrons 0 m R + electrons 1 m R <= max \/ 2 * m <= electrons 0 m R + electrons 1 m R + max) -> Excited m irr max R D.
Proof.
  intros HR HD NE (S1 & S2 & S3) HM. pose proof (electron_count R m) as CR. pose proof (electron_count D m) as CD.
  apply (f_equal Z.of_nat) in S1. rewrite <- !PropPqeEigen.electrons_weight, !weight_orbitals, !PropPqeEigen.wlist_one in S1. rewrite <- !sz_weight, !weight_orbitals, !spin_orbitals in S2.
  assert (E0 : electrons 0 m D = electrons 0 m R) by lia. assert (E1 : electrons 1 m D = electrons 1 m R) by lia.
  pose proof (hole_count R D (2 * m)) as HC. split; [exact HD|]. split; [intros [|[|k]] Hk; [exact E0|exact E1|lia]|]. split; [split|].
  - destruct (holes R D (2 * m)) as [|h l] eqn:EH; [|cbn; lia]. exfalso. cbn [length] in HC. destruct (particles R D (2 * m)) as [|p l] eqn:EP; [|cbn [length] in HC; lia].
    apply NE. apply N2Nat.inj. rewrite <- (MomentSpace.flips_reach R D (2 * m) HR HD), EH, EP. reflexivity.
  - assert (L1 : length (holes R D (2 * m)) <= length (orbitals (occ R) (2 * m))).
    { unfold holes. generalize (2 * m). intros n. induction n as [|n IH]; [reflexivity|]. cbn [orbitals]. destruct (occ R n), (occ D n); cbn [andb negb length]; lia. }
    assert (L2 : length (particles R D (2 * m)) + length (orbitals (occ R) (2 * m)) <= 2 * m).
    { unfold particles. generalize (2 * m). intros n. induction n as [|n IH]; [reflexivity|]. cbn [orbitals]. destruct (occ R n), (occ D n); cbn [andb negb length]; lia. }
    lia.
  - apply N.bits_inj. intros k. rewrite N.bits_0, total_app, N.lxor_spec, !irrep_odd. apply (f_equal (fun x => N.testbit x k)) in S3. unfold determinant_irrep in S3. rewrite !irrep_odd in S3.
    fold (weight (irrep_w irr k) (2 * m) (N.to_nat D)) in S3. fold (weight (irrep_w irr k) (2 * m) (N.to_nat R)) in S3. rewrite !weight_orbitals in S3.
    pose proof (particles_weight (irrep_w irr k) R D (2 * m)) as PW. set (a := wlist _ (holes _ _ _)) in *. set (b := wlist _ (particles _ _ _)) in *.
    assert (Q : Z.odd (b - a) = false) by (rewrite PW, Z.odd_sub, S3; apply xorb_nilpotent). rewrite Z.odd_sub in Q. now destruct (Z.odd a), (Z.odd b).
Qed.
Lemma excited_same m irr max R D : Excited m irr max R D -> SameSymmetry m irr (N.to_nat R) (N.to_nat D).
Proof.
  intros (HD & HE & _ & HI). split; [|split].
  - apply Nat2Z.inj. rewrite <- !PropPqeEigen.electrons_weight, !weight_orbitals, !PropPqeEigen.wlist_one, !electron_count, !HE by lia. reflexivity.
  - rewrite <- !sz_weight, !weight_orbitals, !spin_orbitals, !HE by lia. reflexivity.
  - apply N.bits_inj. intros k. unfold determinant_irrep. rewrite !irrep_odd. fold (weight (irrep_w irr k) (2 * m) (N.to_nat D)). fold (weight (irrep_w irr k) (2 * m) (N.to_nat R)). rewrite !weight_orbitals.
    apply (f_equal (fun x => N.testbit x k)) in HI. rewrite N.bits_0, total_app, N.lxor_spec, !irrep_odd in HI. pose proof (particles_weight (irrep_w irr k) R D (2 * m)) as PW. apply (f_equal Z.odd) in PW. rewrite !Z.odd_sub in PW.
    destruct (Z.odd (wlist (irrep_w irr k) (holes R D (2 * m)))), (Z.odd (wlist (irrep_w irr k) (particles R D (2 * m)))); try discriminate HI; cbn [xorb] in PW; symmetry in PW; apply xorb_eq in PW; exact PW.
Qed.
(** the operator of an excited determinant, for both kinds of excitation operators *)
Lemma excitation_entry m irr max R D ref : max <= 6 -> Reference m (map Z.of_nat ref) R -> Excited m irr max R D -> forall e, fst e = C1 -> Permutation (snd e) (excitation R D (2 * m)) ->
  ExcitationEntry ref e /\ forall qe, exists phase, TakesTo qe (snd e) (N.to_nat R) (N.to_nat D) phase /\ (phase = C1 \/ phase = (- C1)%C).
Proof.
  intros HM (Lr & F01 & HlR & Hocc) (HD & HE & HL & _) e E1 Pm. rewrite map_length in Lr. set (P := particles R D (2 * m)) in *. set (H := holes R D (2 * m)) in *.
  assert (LL : length P = length H). { pose proof (hole_count R D (2 * m)) as HC. rewrite !electron_count, !HE in HC by lia. fold H P in HC. lia. }
  assert (NP : P <> []) by (intros Q; rewrite Q in LL; change (length (@nil nat)) with 0 in LL; lia). assert (NH : H <> []) by (intros Q; rewrite Q in HL; change (length (@nil nat)) with 0 in HL; lia).
  assert (DP : dsorted P) by apply orbitals_sorted. assert (DH : dsorted H) by apply orbitals_sorted.
  assert (DJ : forall k, In k P -> ~ In k H). { intros k K1 K2. apply orbitals_in in K1, K2. destruct K1 as (_ & K1), K2 as (_ & K2). destruct (occ R k), (occ D k); discriminate. }
  assert (X1 : Excitable P H) by (repeat split; try assumption; now left).
  assert (NA : forall A B : list nat, NoDup A -> NoDup B -> (forall p, In p A -> ~ In p B) -> NoDup (A ++ B)).
  { intros A B NA NB. induction NA as [|p l Np Nl IH]; intros J; [exact NB|]. cbn [app]. constructor; [|apply IH; intros q Hq; apply J; now right]. intros X. apply in_app_or in X. destruct X as [X|X]; [now apply Np|]. now apply (J p (or_introl eq_refl)). }
  assert (OC : forall p, p < 2 * m -> (nth p ref 0 <> 0 <-> occ R p = true)).
  { intros p Hp. rewrite (Hocc p Hp). change 0%Z with (Z.of_nat 0). rewrite map_nth. rewrite Z.eqb_eq. rewrite Forall_forall in F01. specialize (F01 (Z.of_nat (nth p ref 0)) ltac:(apply in_map, nth_In; lia)). lia. }
  assert (XE : Excites ref P H).
  { split; apply Forall_forall; intros p Ip; apply orbitals_in in Ip; destruct Ip as (Bp & Op); (split; [lia|]); specialize (OC p Bp); destruct (occ R p), (occ D p); cbn in Op; try discriminate; [|apply OC; reflexivity].
    destruct (Nat.eq_dec (nth p ref 0) 0) as [Q|Q]; [exact Q|]. apply OC in Q. discriminate. }
  assert (AS : act_set P H (N.to_nat R) = true).
  { unfold act_set. apply orb_true_iff. right. apply andb_true_iff. split; [apply none_In|apply full_In]; intros p Hp; apply orbitals_in in Hp; rewrite FermiProofs.occ_bit; destruct (occ R p), (occ D p); cbn in *; destruct Hp; congruence. }
  pose proof (MomentSpace.flips_reach R D (2 * m) HlR HD) as FR. fold P H in FR.
  assert (TK : forall qe, exists phase, TakesTo qe (Antihermitian 1 P H) (N.to_nat R) (N.to_nat D) phase /\ (phase = C1 \/ phase = (- C1)%C)).
  { intros qe. destruct (excite_ket qe 1 P H (N.to_nat R) NP NH LL DP DH (NA P H (dsorted_nodup _ DP) (dsorted_nodup _ DH) DJ) AS) as (k & Hk & EK). rewrite FR in EK. exists (RtoC (1 * k)). split; [exact EK|]. destruct Hk as [-> | ->]; [left|right]; apply C_ext; cbn; ring. }
  assert (M1 : (- C1)%C = RtoC (-1)) by (apply C_ext; cbn; ring). assert (M2 : C1 = RtoC (- -1)) by (apply C_ext; cbn; ring).
  apply Permutation_sym in Pm. apply Permutation_length_2_inv in Pm. destruct e as (c, t). cbn [fst snd] in *. subst c. destruct Pm as [-> | ->].
  - assert (ET : [((C1, particles R D (2 * m)), holes R D (2 * m)); ((- C1, holes R D (2 * m)), particles R D (2 * m))]%C = Antihermitian 1 P H) by (unfold Antihermitian; fold P H; rewrite M1; reflexivity). rewrite ET. split; [|exact TK].
    exists 1%R, P, H. split; [reflexivity|]. split; [|now left]. split; [reflexivity|]. split; [exact X1|]. split; [lia|]. rewrite Rabs_R1. lra.
  - assert (ET : [((- C1, holes R D (2 * m)), particles R D (2 * m)); ((C1, particles R D (2 * m)), holes R D (2 * m))]%C = Antihermitian (-1) H P) by (unfold Antihermitian; fold P H; rewrite <- M2, M1; reflexivity). rewrite ET. split.
    + exists (-1)%R, H, P. split; [reflexivity|]. split; [|now right]. split; [reflexivity|]. split; [now apply excitable_swap|]. split; [lia|]. rewrite Rabs_left; lra.
    + intros qe. destruct (TK qe) as (ph & T & N0). exists ph. split; [|exact N0]. unfold TakesTo in *. rewrite pair_swap. replace (- -1)%R with 1%R by ring. exact T.
Qed.

(** ---- specification ---- *)
(** The algorithm object of a PQE calculation with all particle-hole excitations up to rank max
    that conserve S_z and the irrep: the pool is what fill_pool builds from the reference and the
    irreps of the spatial orbitals, the alpha and the beta orbitals of the reference are filled
    from below, and no determinant of the sector is more than max-fold excited because there are
    at most max electrons or at most max empty spin orbitals. *)
Definition FullPool (srt : sorter) (o : run_options) (s : ucc) (m : nat) (R : N) (irreps : list N) (max : nat) : Prop :=
  Reference m (map Z.of_nat (ref o)) R /\ FitsInt (map Z.of_nat (ref o)) /\ Irreps m irreps /\ Aufbau m R /\ In (pool_type s, max) pool_types /\
  (electrons 0 m R + electrons 1 m R <= max \/ 2 * m <= electrons 0 m R + electrons 1 m R + max) /\
  exists sp, set_orb_spaces (map Z.of_nat (ref o)) irreps = Ok sp /\ SaModel.fill_pool srt sp (pool_type s) [] = Ok (pool s).
(** occupation-list reference on 2m qubits, and a Hermitian Hamiltonian *)
Definition PqeProblem (o : run_options) (s : ucc) (m : nat) : Prop :=
  build_refprep (ref o) = Ok (refprep o) /\ Uprep s = refprep o /\ init s = new_computer (2 * m) /\ Hamiltonian (2 * m) (ham s) /\ (compact s = false -> 1 <= trotter_number s).
(** ... that keeps the electron number, S_z and irrep of the reference *)
Definition SectorProblem (o : run_options) (s : ucc) (m : nat) (R : N) (irreps : list N) : Prop := PqeProblem o s m /\ 
  forall psi, Within (SameSymmetry m irreps (N.to_nat R)) psi -> Within (SameSymmetry m irreps (N.to_nat R)) (op_act (ham s) psi).

Lemma full_pool_facts srt o s m R irr max : legal_sort srt -> FullPool srt o s m R irr max -> length (ref o) = 2 * m /\ max <= 6 /\ (R < 2 ^ N.of_nat (2 * m))%N /\ Occupations (ref o) (N.to_nat R) /\ pool_type s <> "sa_SD"%string /\ length (ref o) <= 64 /\
  exists dets, StronglySorted N.lt dets /\ (forall D, In D dets <-> Excited m irr max R D) /\ Forall2 (fun D e => fst e = C1 /\ Permutation (snd e) (excitation R D (2 * m))) dets (pool s).
Proof.
  intros HS (HR & HF & HI & HAu & Ht & _ & sp & E & EP). assert (LR : length (ref o) = 2 * m) by (destruct HR as (Lr & _); now rewrite map_length in Lr).
  destruct (C32_aufbau_pool_partial srt HS m _ R irr _ max HR HF HI Ht HAu) as (sp' & pool' & dets & E' & EP' & HSt & HD & F2). assert (sp' = sp) by congruence. subst sp'.
  assert (T : pool_type s <> "sa_SD"%string /\ pool_type s <> "GSD"%string /\ max <= 6). { cbn in Ht. repeat (destruct Ht as [Ht|Ht]; [injection Ht as <- <-; split; [discriminate|]; split; [discriminate|lia]|]). destruct Ht. }
  destruct T as (T1 & T2 & T3). unfold SaModel.fill_pool in EP. rewrite (proj2 (String.eqb_neq _ _) T1), (proj2 (String.eqb_neq _ _) T2) in EP. assert (pool' = pool s) by congruence. subst pool'.
  split; [exact LR|]. split; [exact T3|]. split; [apply HR|]. split.
  { intros q. rewrite FermiProofs.occ_bit. destruct HR as (_ & F01 & HlR & HO). destruct (Nat.lt_ge_cases q (2 * m)) as [Hq|Hq].
    - rewrite (HO q Hq). change 0%Z with (Z.of_nat 0). rewrite map_nth. rewrite Forall_forall in F01. specialize (F01 (Z.of_nat (nth q (ref o) 0)) ltac:(apply in_map, nth_In; lia)).
      destruct F01 as [F|F]; rewrite F; [assert (nth q (ref o) 0 = 0) as -> by lia; reflexivity|]. destruct (Nat.eqb_spec (nth q (ref o) 0) 0) as [Q|Q]; [lia|reflexivity].
    - rewrite nth_overflow by lia. unfold occ. destruct (N.eq_dec R 0) as [->|NR]; [now rewrite N.bits_0|]. rewrite N.bits_above_log2; [reflexivity|]. apply N.log2_lt_pow2; [lia|]. eapply N.lt_le_trans; [exact HlR|]. apply N.pow_le_mono_r; lia. }
  split; [exact T1|]. split; [destruct HF as (HF & _); now rewrite map_length in HF|]. exists dets. split; [exact HSt|]. split; [exact HD|exact F2].
Qed.
Lemma n_lt_pow D n : N.to_nat D < 2 ^ n <-> (D < 2 ^ N.of_nat n)%N.
Proof. replace (2 ^ n) with (N.to_nat (2 ^ N.of_nat n)) by (rewrite N2Nat.inj_pow, Nat2N.id; reflexivity). lia. Qed.
Lemma sorted_nodup l : StronglySorted N.lt l -> NoDup (map N.to_nat l).
Proof.
  induction 1 as [|x l H IH F]; cbn [map]; constructor; [|exact IH]. intros Hx. apply in_map_iff in Hx. destruct Hx as (y & E & Hy). apply N2Nat.inj in E. subst y. rewrite Forall_forall in F. apply F in Hy. now apply N.lt_irrefl in Hy.
Qed.
Lemma full_object srt o s m R irr max : legal_sort srt -> FullPool srt o s m R irr max -> PqeProblem o s m -> PqeObject o s /\ reference s = ket (N.to_nat R).
Proof.
  intros HS HP (ER & EU & EI & HH & T1). destruct (full_pool_facts _ _ _ _ _ _ _ HS HP) as (LR & HM & HlR & HOc & Tn & L64 & dets & _ & HD & F2). split.
  - split; [exact L64|]. split; [exact ER|]. split; [exact EU|]. split; [now rewrite LR|]. split; [now rewrite LR|]. split; [exact Tn|]. split; [exact T1|].
    assert (HD' : forall D, In D dets -> Excited m irr max R D) by (intros D I; now apply HD). clear HD. destruct HP as (HR & _). induction F2 as [|D e dets pl (F1 & Pm) F2 IH]; constructor; [|apply IH; intros D' I; apply HD'; now right].
    apply (excitation_entry m irr max R D (ref o) HM HR (HD' D (or_introl eq_refl)) e F1 Pm).
  - apply (occupation_reference (ref o) (refprep o)); [exact ER|exact HOc|exact EU|now rewrite LR].
Qed.
(** ---- the energy variance is the squared norm of the residuals ---- *)
Definition in_sector (m : nat) (irreps : list N) (R : N) (I : nat) : bool :=
  Nat.eqb (n_electrons (2 * m) I) (n_electrons (2 * m) (N.to_nat R)) && Z.eqb (two_sz m I) (two_sz m (N.to_nat R)) && N.eqb (determinant_irrep (2 * m) irreps I) (determinant_irrep (2 * m) irreps (N.to_nat R)).
Lemma in_sector_same m irr R I : in_sector m irr R I = true <-> SameSymmetry m irr (N.to_nat R) I.
Proof. unfold in_sector, SameSymmetry. rewrite !andb_true_iff, Nat.eqb_eq, Z.eqb_eq, N.eqb_eq. tauto. Qed.
(** any Hermitian H: phi is the PQE state and E its energy; the components of H phi - E phi on the
    determinants of the sector have the sum of squares of the residuals *)
Theorem C93_sector_variance_partial : forall srt o s m R irreps max ts rs, legal_sort srt -> FullPool srt o s m R irreps max -> PqeProblem o s m ->
  Admissible s (2 * m) ts -> Residuals s (2 * m) ts rs ->
  exists phi E, exp_product (pqe_factors s ts) (reference s) phi /\ inner (2 * m) phi phi = C1 /\ E = energy (2 * m) (op_act (ham s)) phi /\
    (forall I, phi I <> C0 -> SameSymmetry m irreps (N.to_nat R) I) /\
    normsq (2 * m) (fun I => if in_sector m irreps R I then op_act (ham s) phi I - RtoC E * phi I else C0)%C = square_norm rs.
Proof.
  intros srt o s m R irr max ts rs HS HP HSP HA HR. destruct (full_object _ _ _ _ _ _ _ HS HP HSP) as (HO & RK). destruct (full_pool_facts _ _ _ _ _ _ _ HS HP) as (LR & HM & HlR & HOc & Tn & L64 & dets & HSt & HD & F2).
  destruct HP as (HRef & _ & _ & _ & _ & HMax & _).
  pose proof (sector_variance o s ts (SameSymmetry m irr) (N.to_nat R) (map N.to_nat dets)) as SV. rewrite LR in SV. refine (SV HO HA RK _ _ _ (in_sector m irr R) (in_sector_same m irr R) _ _ _ _ rs HR); clear SV.
  - intros I. repeat split.
  - intros I J K (A1 & A2 & A3) (B1 & B2 & B3). repeat split; congruence.
  - assert (FS : Forall (fun e => Forall (fun t => Symmetric m irr (fcre t) (fann t)) (snd e)) (pool s)).
    { assert (HD' : forall D, In D dets -> Excited m irr max R D) by (intros D I; now apply HD). clear - F2 HD'. induction F2 as [|D e dets pl (_ & Pm) F2 IH]; constructor; [|apply IH; intros D' I; apply HD'; now right]. apply (permuted_symmetric _ _ _ _ Pm). unfold excitation. apply pair_symmetric, (excitation_symmetric _ _ max), HD'. now left. }
    unfold pqe_factors. cbv zeta. assert (G := PropSector.factors_keep m irr (qubit_excitations s) (pool s) FS (seq 0 (length (pool s))) ts). destruct (compact s); [exact G|]. exact (PropPqeEigen.steps_conserve (fun A => forall I0 psi, Within (SameSymmetry m irr I0) psi -> Within (SameSymmetry m irr I0) (A psi)) _ _ G).
  - now apply sorted_nodup.
  - intros J HJ. apply in_map_iff in HJ. destruct HJ as (D & <- & ID). apply HD in ID. pose proof (excited_same m irr max R D ID) as SD. destruct ID as (LD & _ & (HL & _) & _). split; [|split; [|exact SD]].
    + now apply n_lt_pow.
    + intros Q. apply N2Nat.inj in Q. subst D. replace (holes R R (2 * m)) with (@nil nat) in HL; [cbn in HL; lia|]. unfold holes. generalize (2 * m). intros n. clear. induction n as [|n IH]; [reflexivity|]. cbn [orbitals]. destruct (occ R n); exact IH.
  - intros J LJ NJ NI HSame. apply NI. apply in_map_iff. exists (N.of_nat J). split; [apply Nat2N.id|]. apply HD. apply (same_excited m irr R (N.of_nat J) max); [exact HlR|apply n_lt_pow; now rewrite Nat2N.id|intros Q; apply NJ; now rewrite <- Q, Nat2N.id|now rewrite Nat2N.id|exact HMax].
  - assert (HD' : forall D, In D dets -> Excited m irr max R D) by (intros D I; now apply HD). clear - F2 HD' HM HRef. induction F2 as [|D e dets pl (F1 & Pm) F2 IH]; cbn [map]; constructor; [|apply IH; intros D' I; apply HD'; now right].
    apply (excitation_entry m irr max R D (ref o) HM HRef (HD' D (or_introl eq_refl)) e F1 Pm).
Qed.
Print Assumptions C93_sector_variance_partial.
(** H keeps the sector: the squared norm of H phi - E phi is <phi|H^2|phi> - E^2 *)
Theorem C93_variance_partial : forall srt o s m R irreps max ts rs, legal_sort srt -> FullPool srt o s m R irreps max -> SectorProblem o s m R irreps ->
  Admissible s (2 * m) ts -> Residuals s (2 * m) ts rs ->
  exists phi E, exp_product (pqe_factors s ts) (reference s) phi /\ inner (2 * m) phi phi = C1 /\ E = energy (2 * m) (op_act (ham s)) phi /\
    (forall I, phi I <> C0 -> SameSymmetry m irreps (N.to_nat R) I) /\
    normsq (2 * m) (fun I => op_act (ham s) phi I - RtoC E * phi I)%C = square_norm rs.
Proof.
  intros srt o s m R irr max ts rs HS HP (HPP & HN) HA HR. destruct (C93_sector_variance_partial srt o s m R irr max ts rs HS HP HPP HA HR) as (phi & E & X1 & X2 & X3 & X4 & V). exists phi, E. split; [exact X1|]. split; [exact X2|]. split; [exact X3|]. split; [exact X4|]. rewrite <- V. unfold normsq. set (a := fun I : nat => (op_act (ham s) phi I - RtoC E * phi I)%C). set (b := fun I : nat => if in_sector m irr R I then _ else _). enough (AB : forall I, a I = b I) by (now rewrite (inner_ext (2 * m) a b a b AB AB)). intros I. unfold a, b.
  destruct (in_sector m irr R I) eqn:EI; [reflexivity|]. assert (NS : ~ SameSymmetry m irr (N.to_nat R) I) by (rewrite <- in_sector_same; congruence).
  destruct (Ceq_dec (phi I) C0) as [Q|Q]; [|elim NS; now apply X4]. destruct (Ceq_dec (op_act (ham s) phi I) C0) as [Q'|Q']; [|elim NS; apply (HN phi X4 I Q')]. rewrite Q, Q'. apply C_ext; cbn; ring.
Qed.
Print Assumptions C93_variance_partial.
(** ---- consequences ---- *)
(** the residuals vanish exactly when the PQE state is an eigenstate of H *)
Theorem C93_eigenstate_partial : forall srt o s m R irreps max ts rs, legal_sort srt -> FullPool srt o s m R irreps max -> SectorProblem o s m R irreps ->
  Admissible s (2 * m) ts -> Residuals s (2 * m) ts rs ->
  (Forall (fun r => r = C0) rs <->
   exists phi E, exp_product (pqe_factors s ts) (reference s) phi /\ inner (2 * m) phi phi = C1 /\ forall I, I < 2 ^ (2 * m) -> op_act (ham s) phi I = (RtoC E * phi I)%C).
Proof.
  intros srt o s m R irr max ts rs HS HP HSP HA HR. destruct (full_pool_facts _ _ _ _ _ _ _ HS HP) as (LR & _). split.
  - intros HZ. destruct (C93_variance_partial srt o s m R irr max ts rs HS HP HSP HA HR) as (phi & E & X1 & X2 & _ & _ & V). exists phi, E. split; [exact X1|]. split; [exact X2|]. intros I LI.
    apply (proj2 (C88_zero_residuals rs)) in HZ. rewrite HZ in V. pose proof (norm_zero (2 * m) _ V I LI) as V0. cbn beta in V0. apply (f_equal (fun x => (x + RtoC E * phi I)%C)) in V0. transitivity (op_act (ham s) phi I - RtoC E * phi I + RtoC E * phi I)%C; [ring|]. rewrite V0. ring.
  - intros (phi & E & X1 & _ & X3). destruct (full_object _ _ _ _ _ _ _ HS HP (proj1 HSP)) as (HO & _). rewrite <- LR in HA, HR, X3. exact (PropPqeEigen.C88_eigenstate_zero_residuals_partial o s ts rs phi (RtoC E) HO HA HR X1 X3).
Qed.
Print Assumptions C93_eigenstate_partial.
(** an eigenvector chi of H with eigenvalue lambda that overlaps the PQE state phi: the error of
    the energy times the overlap is at most the norm of the residual vector *)
Theorem C93_energy_error_partial : forall srt o s m R irreps max ts rs, legal_sort srt -> FullPool srt o s m R irreps max -> SectorProblem o s m R irreps ->
  Admissible s (2 * m) ts -> Residuals s (2 * m) ts rs ->
  exists phi E, exp_product (pqe_factors s ts) (reference s) phi /\ IsAnsatzEnergy s (2 * m) ts E /\
    forall chi lambda, inner (2 * m) chi chi = C1 -> (forall I, I < 2 ^ (2 * m) -> op_act (ham s) chi I = (RtoC lambda * chi I)%C) ->
      (Rabs (E - lambda) * Cabs (inner (2 * m) chi phi) <= sqrt (square_norm rs))%R.
Proof.
  intros srt o s m R irr max ts rs HS HP HSP HA HR. destruct (C93_variance_partial srt o s m R irr max ts rs HS HP HSP HA HR) as (phi & E & X1 & X2 & X3 & _ & V). exists phi, E. split; [exact X1|]. split; [now exists phi|].
  intros chi lam Hchi HE. set (n := 2 * m) in *. set (H := op_act (ham s)) in *. assert (SA : self_adjoint n H) by (intros a b; exact (PenProofs.ham_hermitian n (ham s) ltac:(apply HSP) n a b (le_n n))).
  set (v := fun I => (H phi I - RtoC E * phi I)%C) in *. assert (EV : v == sadd (H phi) (sscale (RtoC (- E)) phi)) by (intros I; unfold v, sadd, sscale; apply C_ext; cbn; ring).
  assert (IV : inner n chi v = (RtoC (lam - E) * inner n chi phi)%C).
  { rewrite (inner_ext n chi chi v _ (fun I => eq_refl) EV), inner_add_r, inner_scale_r, SA.
    assert (Q : inner n (H chi) phi = inner n (sscale (RtoC lam) chi) phi) by (unfold inner; apply Csum_ext; intros I HI; apply in_seq in HI; rewrite HE by lia; reflexivity). rewrite Q, inner_scale_l. apply C_ext; cbn; ring. }
  pose proof (MomentProofs.cs_abs n chi v) as CS. rewrite IV in CS. assert (CM : Cabs (RtoC (lam - E) * inner n chi phi) = (Rabs (E - lam) * Cabs (inner n chi phi))%R).
  { unfold Cabs, Cnorm2. rewrite <- (sqrt_Rsqr_abs (E - lam)), <- sqrt_mult; [|apply Rle_0_sqr|nra]. f_equal. unfold Rsqr. cbn. ring. }
  rewrite CM in CS. unfold norm in CS at 1. replace (normsq n chi) with 1%R in CS by (unfold normsq; rewrite Hchi; reflexivity). rewrite sqrt_1, Rmult_1_l in CS. unfold norm in CS. now rewrite V in CS.
Qed.
Print Assumptions C93_energy_error_partial.
(** quasi-Newton run that stops before opt_maxiter passes: with the amplitudes before the last
    update, H phi - E phi is shorter than the threshold *)
Theorem C93_converged_run_partial : forall srt L o s m R irreps max r, legal_sort srt -> FullPool srt o s m R irreps max -> SectorProblem o s m R irreps ->
  LegalLibraries L (2 * m) (ham s) -> PointModel.lower (optimizer o) = "jacobi"%string -> (noise_factor o <= 1e-12)%R -> pqe_run L o s = Ok r -> res_vec_evals r < opt_maxiter o ->
  exists t_old, length t_old = length (pool s) /\ (Admissible s (2 * m) t_old ->
    exists phi E, exp_product (pqe_factors s t_old) (reference s) phi /\ IsAnsatzEnergy s (2 * m) t_old E /\ (norm (2 * m) (fun I => op_act (ham s) phi I - RtoC E * phi I)%C < opt_thresh o)%R).
Proof.
  intros srt L o s m R irr max r HS HP HSP HL HJ HN ER HK. destruct (full_object _ _ _ _ _ _ _ HS HP (proj1 HSP)) as (HO & _). destruct (full_pool_facts _ _ _ _ _ _ _ HS HP) as (LR & _). rewrite <- LR in HL.
  destruct (C88_jacobi_converged L o s r HL HO HJ HN ER) as (_ & G). destruct (G HK) as (t_old & LT & GT). exists t_old. split; [exact LT|]. intros HA. rewrite LR in GT. destruct (GT HA) as (rs & HR & HT).
  destruct (C93_variance_partial srt o s m R irr max t_old rs HS HP HSP HA HR) as (phi & E & X1 & X2 & X3 & _ & V). exists phi, E. split; [exact X1|]. split; [now exists phi|]. unfold norm. now rewrite V.
Qed.
Print Assumptions C93_converged_run_partial.

(** ---- non-vacuity: two electrons in four spin orbitals, all excitations, H = Z_0 + Z_1 ---- *)
Definition full_object_example (pl : sqpool) : ucc := mkUcc (new_computer 4) (StateProofs.xgates 0 [1; 1; 0; 0]) [(C1, [PropPqeEigen.gZ1 0]); (C1, [PropPqeEigen.gZ1 1])] "SD" false false 1 pl [] [].
Definition full_options_example : run_options := mkRun "jacobi" true (1/100000) (1/100000) 50 0 8 true false "occupation_list" [1; 1; 0; 0] (StateProofs.xgates 0 [1; 1; 0; 0]) (Some [RtoC (-2); RtoC (-2); RtoC 1; RtoC 1]%R) 1.
Lemma ones_admissible o s n : PqeObject o s -> n = length (ref o) -> compact s = false -> Admissible s n (repeat 1%R (length (pool s))).
Proof.
  intros (_ & _ & _ & _ & _ & _ & _ & FE) -> HC. split; [apply repeat_length|]. apply Forall_forall. intros (k, t) Hk. assert (Ht : t = 1%R) by (apply in_combine_r in Hk; now apply repeat_spec in Hk). apply in_combine_l, in_seq in Hk. cbn [fst snd]. subst t.
  destruct (nth_error (pool s) k) as [e|] eqn:E; [|apply nth_error_None in E; lia]. rewrite Forall_forall in FE. destruct (FE e (nth_error_In _ _ E)) as (a & P & H & -> & ST & EX). exists a, P, H. split; [now apply pool_item_nth|]. split; [exact ST|].
  assert (B : forall A B, Excites (ref o) A B -> Forall (fun p => p < length (ref o)) A /\ Forall (fun p => p < length (ref o)) B) by (intros A B (F1 & F2); split; [eapply Forall_impl; [|exact F1]|eapply Forall_impl; [|exact F2]]; intros p Hp; apply Hp).
  assert (BB : Forall (fun p => p < length (ref o)) P /\ Forall (fun p => p < length (ref o)) H) by (destruct EX as [X|X]; apply B in X; tauto). split; [apply BB|]. split; [apply BB|]. rewrite HC. right. rewrite Rmult_1_l. apply ST.
Qed.
Example C93_nonvacuous : exists pl, let s := full_object_example pl in FullPool PropSQ.isort full_options_example s 2 3 [] 2 /\ SectorProblem full_options_example s 2 3 [] /\
  pl <> [] /\ Admissible s (2 * 2) (repeat 1%R (length pl)) /\ exists rs, Residuals s (2 * 2) (repeat 1%R (length pl)) rs.
Proof.
  assert (HR : Reference 2 (map Z.of_nat [1; 1; 0; 0]) 3). { split; [reflexivity|]. split; [repeat constructor; (now left) || (now right)|]. split; [reflexivity|]. intros p Hp. do 4 (destruct p as [|p]; [reflexivity|]). lia. }
  assert (HF : FitsInt (map Z.of_nat [1; 1; 0; 0])). { split; [cbn; lia|]. intros p Hp. apply nth_overflow. cbn. lia. }
  assert (HI : Irreps 2 []) by now left. assert (HT : In ("SD"%string, 2) pool_types) by (cbn; tauto).
  assert (HAu : Aufbau 2 3). { intros k Hk. exists 1. intros j Hj. destruct k as [|[|k]]; [| |lia]; destruct j as [|[|j]]; try reflexivity; lia. }
  destruct (C32_aufbau_pool_partial PropSQ.isort PropSQ.isort_legal 2 _ 3 [] "SD" 2 HR HF HI HT HAu) as (sp & pl & dets & E & EP & _ & HD & F2). exists pl. intros s.
  assert (HP : FullPool PropSQ.isort full_options_example s 2 3 [] 2). { split; [exact HR|]. split; [exact HF|]. split; [exact HI|]. split; [exact HAu|]. split; [exact HT|]. split; [left; cbn; lia|]. exists sp. split; [exact E|exact EP]. }
  assert (HSP : SectorProblem full_options_example s 2 3 []).
  { split.
    { split; [apply StateProofs.refprep_eq|]. split; [reflexivity|]. split; [reflexivity|]. split; [|cbn; lia].
    { assert (G : forall q, q < 4 -> StringOn 4 [PropPqeEigen.gZ1 q]). { intros q Lq. split; [split|]; (constructor; [|constructor]); [exists "Z"%string, q; split; [tauto|unfold make_gate; now rewrite Nat.eqb_refl]|intros []|exact Lq]. }
      constructor; [split; [apply G; lia|reflexivity]|]. constructor; [split; [apply G; lia|reflexivity]|constructor]. } }
    intros psi W I HI'. apply W. intros Q. apply HI'. unfold op_act, s, full_object_example. cbn [ham]. rewrite !Csum_cons, Csum_nil. cbn [fst snd]. unfold circ_act, PropPqeEigen.gZ1. cbn [fold_left]. rewrite !ThreeQubit.act_1, !GateEval.ev_Z, Q. ring. }
  destruct (full_object _ _ _ _ _ _ _ PropSQ.isort_legal HP (proj1 HSP)) as (HO & RK). assert (HA : Admissible s (2 * 2) (repeat 1%R (length pl))) by (apply (ones_admissible full_options_example s); [exact HO|reflexivity|reflexivity]).
  split; [exact HP|]. split; [exact HSP|]. split.
  - intros ->. inversion F2; subst dets. assert (I12 : In 12%N []). { apply HD. split; [reflexivity|]. split; [intros [|[|k]] Hk; [reflexivity|reflexivity|lia]|]. split; [cbn; lia|reflexivity]. } destruct I12.
  - split; [exact HA|]. destruct (pqe_setup example_libraries full_options_example s) as (D0 & pl0 & dt0 & _ & _ & _ & _ & _ & _ & _ & GR); [split; [exact PropSQ.isort_legal|split; [exact tsort_legal|exact Logic.I]]|exact HO|]. destruct (GR _ HA) as (rs & HRs & _). exists rs. exact HRs.
Qed.
