(** The residual state of moment corrections and SPQE: first order in dt. *)
From Coq Require Import Reals String List Arith NArith Bool Lia Lra.
From Verif Require Import CBase Result Bits Spec OpSpec GateModel MeasSpec ComputerModel SafeProofs LibProofs CleanProofs SimProofs CircuitModel PauliProofs OperatorModel MeasureModel MeasureProofs PyModel PyApply ExpSpec ExpProofs ExpCircuit FermiProofs GradModel GradProofs QkModel QkProofs PropOperator PropMeasure PropGrad PropQk SparseNorm TrotterProofs QpeProofs QiteNorm.
Import ListNotations.
Local Open Scope R_scope.

(** ---- the Trotter circuit of e^{i dt H} ---- *)
Lemma ylist_strings n m t h : Hamiltonian n h -> Forall (fun u => StringOn n (snd u)) (ylist m t h).
Proof.
  intros HH. unfold ylist. generalize m at 2 as k. induction k as [|k IH]; [constructor|]. cbn [repeat concat]. apply Forall_app. split; [|exact IH]. apply Forall_map. eapply Forall_impl; [|exact HH]. intros u Hu. apply Hu.
Qed.
Lemma rsum_repeat {A} (f : A -> R) b k : Rsum f (concat (repeat b k)) = INR k * Rsum f b.
Proof. induction k as [|k IH]; [unfold Rsum; cbn; ring|]. cbn [repeat concat]. rewrite Rsum_app, IH, S_INR. ring. Qed.
Lemma real_abs c : Im c = 0 -> Cabs c = Rabs (Re c).
Proof. intros H. unfold Cabs, Cnorm2. rewrite H. replace (Re c * Re c + 0 * 0) with (Re c * Re c) by ring. apply sqrt_Rsqr_abs. Qed.
Lemma total_ylist n m t h : (1 <= m)%nat -> Hamiltonian n h -> total_angle (ylist m t h) = Rabs t * weight h.
Proof.
  intros Hm HH. unfold total_angle, ylist. rewrite rsum_repeat. assert (HM : INR m <> 0) by (apply not_0_INR; lia).
  assert (E : Rsum (fun u : R * list gate => Rabs (fst u)) (map (fun u : C * list gate => ((- t * Re (fst u) * / INR m)%R, snd u)) h) = Rabs t * weight h * / INR m).
  { unfold weight. induction HH as [|u h (_ & Hu) _ IH]; [unfold Rsum; cbn; ring|]. cbn [map]. rewrite !Rsum_cons, IH. cbn [fst]. rewrite !Rabs_mult, Rabs_Ropp, (real_abs _ Hu), (Rabs_right (/ INR m)); [ring|]. apply Rle_ge, Rlt_le, Rinv_0_lt_compat, lt_0_INR. lia. }
  rewrite E. field. exact HM.
Qed.
Lemma first_ylist n m t h a : (1 <= m)%nat -> Hamiltonian n h -> first_order (ylist m t h) a == sscale (mkC 0 (- t)) (op_act h a).
Proof.
  intros Hm HH I. assert (HM : INR m <> 0) by (apply not_0_INR; lia). unfold first_order, ylist, sscale, op_act.
  assert (G : forall (f : R * list gate -> C) b k, Csum f (concat (repeat b k)) = (RtoC (INR k) * Csum f b)%C).
  { intros f b k. induction k as [|k IH]; [cbn [repeat concat]; rewrite Csum_nil; apply C_ext; cbn; ring|]. cbn [repeat concat]. rewrite Csum_app, IH, S_INR. apply C_ext; cbn; ring. }
  rewrite G, Csum_map, <- !Csum_mul_l. apply Csum_ext. intros u Hu. unfold Hamiltonian in HH. rewrite Forall_forall in HH. destruct (HH u Hu) as (_ & HI). cbn [fst snd]. apply C_ext; cbn; rewrite HI; field; exact HM.
Qed.
Lemma evolve_circuit n m dt h : (1 <= m)%nat -> Hamiltonian n h -> exists gs ph, trotterize h (mkC 0 dt) m 1 = Ok (gs, ph) /\ applicable n gs /\ (forall psi, sscale ph (circ_act gs psi) == eulers (ylist m (- dt) h) psi) /\ Cnorm2 ph = 1.
Proof.
  intros Hm HH. unfold trotterize. rewrite trotter_scaled by exact Hm. replace (mkC 0 dt) with (mkC 0 (- - dt)) by (f_equal; ring).
  rewrite full_opened by (eapply Forall_impl; [|exact HH]; intros u Hu; apply Hu). pose proof (ylist_strings n m (- dt) h HH) as HS.
  destruct (plain_terms (ylist m (- dt) h)) with (g0 := @nil gate) (p0 := C1) as (gs & ph & EF & L & A & F).
  { eapply Forall_impl; [|exact HS]. intros u Hu. split; [now apply (string_word n)|]. destruct (string_on n _ Hu) as (HP & _). destruct (snd u) as [|g P]; [now left|right]. inversion HP as [|? ? Hg _]; subst. unfold sup. cbn [filter]. unfold not_I. destruct (pauli_label_cases _ (proj1 Hg)) as [E|[E|E]]; rewrite E; cbn; discriminate. }
  unfold exp_terms. rewrite EF. exists gs, (C1 * ph)%C. assert (AG : applicable n gs).
  { apply F. eapply Forall_impl; [|exact HS]. intros u Hu g Hg. destruct (string_on n _ Hu) as (_ & _ & HR). rewrite Forall_forall in HR. now apply HR. }
  replace (C1 * ph)%C with ph by ring. split; [reflexivity|]. split; [exact AG|]. split; [exact A|].
  assert (N0 : normsq n (ket 0) = 1) by (unfold normsq; rewrite ket_norm by (pose proof (Nat.pow_nonzero 2 n); lia); reflexivity).
  assert (E : normsq n (sscale ph (circ_act gs (ket 0))) = normsq n (eulers (ylist m (- dt) h) (ket 0))) by (unfold normsq; now rewrite (inner_ext n _ _ _ _ (A (ket 0)) (A (ket 0)))).
  rewrite normsq_scale in E. unfold normsq in *. rewrite (eulers_inner n _ HS) in E. destruct AG as (G1 & _ & G3). rewrite (circ_preserves_inner n gs _ _ G1 G3) in E. rewrite N0 in E. lra.
Qed.
(** |<v|w>| <= |v| |w| *)
Lemma cs_abs n v w : Cabs (inner n v w) <= norm n v * norm n w.
Proof.
  set (z := inner n v w). destruct (Req_dec (Cabs z) 0) as [Z|Z]; [rewrite Z; apply Rmult_le_pos; apply norm_nonneg|].
  assert (P : 0 < Cabs z) by (pose proof (Cabs_nonneg z); lra). set (k := (RtoC (/ Cabs z) * z)%C).
  assert (ZZ : Re z * Re z + Im z * Im z = Cabs z * Cabs z) by (unfold Cabs, Cnorm2; rewrite sqrt_sqrt; [reflexivity|nra]).
  assert (E : inner n (sscale k v) w = RtoC (Cabs z)).
  { rewrite inner_scale_l. fold z. unfold k. apply C_ext; cbn.
    - transitivity (/ Cabs z * (Re z * Re z + Im z * Im z)); [ring|]. rewrite ZZ. field. lra.
    - ring. }
  assert (NK : Cabs k = 1).
  { unfold k, Cabs, Cnorm2. cbn. fold (Cnorm2 z). change (sqrt (Cnorm2 z)) with (Cabs z). replace (_ + _) with (/ Cabs z * / Cabs z * (Re z * Re z + Im z * Im z)) by ring. rewrite ZZ. replace (_ * _) with 1 by (field; lra). apply sqrt_1. }
  pose proof (cauchy n (sscale k v) w) as H. rewrite E, norm_scale, NK in H. cbn [Re RtoC] in H. lra.
Qed.
Lemma ket_unit n I : (I < 2 ^ n)%nat -> inner n (ket I) (ket I) = C1.
Proof. intros H. rewrite (QftProofs.inner_ket n) by exact H. unfold ket. now rewrite Nat.eqb_refl. Qed.
(** the amplitude of |I> in U^dagger e^{i dt H} U |D>, divided by dt, up to its phase *)
Lemma first_order_amplitude n m dt h U gs ph D I : (1 <= m)%nat -> Hamiltonian n h -> applicable n U -> (D < 2 ^ n)%nat -> (I < 2 ^ n)%nat -> I <> D -> dt <> 0 ->
  (forall psi, sscale ph (circ_act gs psi) == eulers (ylist m (- dt) h) psi) -> Cnorm2 ph = 1 ->
  let c := circ_act (circuit_adjoint U) (circ_act gs (circ_act U (ket D))) I in
  let M := inner n (circ_act U (ket I)) (op_act h (circ_act U (ket D))) in
  Cabs (ph * c * RtoC (/ dt) - Ci * M)%C <= Rabs dt * (weight h * weight h) / 2.
Proof.
  intros Hm HH (U1 & U2 & U3) HD HI ND Hdt A NP c M. set (a := circ_act U (ket D)) in *. set (b := circ_act U (ket I)) in *. pose proof (ylist_strings n m (- dt) h HH) as HS. set (l := ylist m (- dt) h) in *.
  assert (EC : (ph * c)%C = inner n b (eulers l a)).
  { rewrite <- (inner_ext n b b _ _ (seq_refl _) (A a)). rewrite inner_scale_r. f_equal. unfold c, b. rewrite (inner_conj n (circ_act U (ket I))), (circ_inner_adjoint n U _ _ U1 U3), <- inner_conj. symmetry. now apply (QftProofs.inner_ket n). }
  pose proof (eulers_remainder n l a HS) as HR. set (rho := ssub (eulers l a) (sadd a (first_order l a))) in *.
  assert (NA : norm n a = 1) by (unfold norm, normsq, a; rewrite (circ_preserves_inner n U _ _ U1 U3), ket_unit by exact HD; apply sqrt_1). assert (NB : norm n b = 1) by (unfold norm, normsq, b; rewrite (circ_preserves_inner n U _ _ U1 U3), ket_unit by exact HI; apply sqrt_1).
  assert (OR : inner n b a = C0).
  { unfold a, b. rewrite (circ_preserves_inner n U _ _ U1 U3), (QftProofs.inner_ket n) by exact HI. unfold ket. destruct (Nat.eqb_spec I D); [contradiction|reflexivity]. }
  assert (E2 : inner n b (eulers l a) = (mkC 0 dt * M + inner n b rho)%C).
  { rewrite (inner_ext n b b (eulers l a) (sadd (sadd a (sscale (mkC 0 dt) (op_act h a))) rho) (seq_refl _)).
    - rewrite !inner_add_r, inner_scale_r, OR. fold M. ring.
    - intros J. unfold rho, ssub, sadd. pose proof (first_ylist n m (- dt) h a Hm HH J) as F. fold l in F. rewrite F. replace (mkC 0 (- - dt)) with (mkC 0 dt) by (f_equal; ring). ring. }
  rewrite EC, E2. replace ((mkC 0 dt * M + inner n b rho) * RtoC (/ dt) - Ci * M)%C with (RtoC (/ dt) * inner n b rho)%C by (apply C_ext; cbn; field; exact Hdt).
  rewrite Cabs_mul, Cabs_RtoC, Rabs_Rinv by exact Hdt. pose proof (cs_abs n b rho) as CS. rewrite NB, Rmult_1_l in CS. rewrite NA, Rmult_1_r in HR. unfold l in HR. rewrite (total_ylist n m (- dt) h Hm HH), Rabs_Ropp in HR.
  assert (PD : 0 < Rabs dt) by now apply Rabs_pos_lt. apply Rmult_le_reg_l with (Rabs dt); [exact PD|]. rewrite <- Rmult_assoc, Rinv_r, Rmult_1_l by lra. nra.
Qed.
