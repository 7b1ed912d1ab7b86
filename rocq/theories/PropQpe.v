(** C73, C74: quantum phase estimation. *)
From Coq Require Import Reals String List Arith ZArith Bool Lia Lra FunctionalExtensionality.
From Verif Require Import CBase Result Bits Spec OpSpec GateModel MeasSpec ComputerModel SafeProofs GateProofs LibProofs CleanProofs SimProofs CircuitModel PauliProofs OperatorModel MeasureModel MeasureProofs MeasReadout QftSpec GateEval PyModel PyApply ExpSpec ExpProofs ExpCircuit PropOperator PropMeasure PropGrad GradModel QkModel QkProofs QpeModel HadProofs PropQk QpeProofs FejerProofs QpeDist.
From Verif Require TrotterProofs PropPy QftProofs PropAnsatz.
Import ListNotations.
Local Open Scope nat_scope.

(** ---- C74: from readouts to an energy ---- *)
Lemma round_close x : (Rabs (IZR (py_round x) - x) <= 1 / 2)%R.
Proof.
  unfold py_round. cbv zeta. pose proof (base_Int_part x) as (H1 & H2). set (f := Int_part x) in *. apply Rabs_le.
  destruct (Rltb_spec (x - IZR f) (1 / 2)) as [L|L]; [lra|]. destruct (Rltb_spec (1 / 2) (x - IZR f)) as [L2|L2]; [rewrite plus_IZR; lra|]. destruct (Z.even f); [lra|rewrite plus_IZR; lra].
Qed.
(** the energies -2 pi (phase + k) / t that go with a phase *)
Definition candidate (t phase : R) (k : Z) : R := (-2 * PI * (phase + IZR k) / t)%R.
Theorem C74_energy_closest : forall phase guess t, (0 <= phase < 1)%R -> t <> 0%R ->
  exists k, energy_of phase (py_round (t * guess / (-2 * PI))) guess t = candidate t phase k /\
    (forall k', Rabs (candidate t phase k - guess) <= Rabs (candidate t phase k' - guess))%R /\ (Rabs (candidate t phase k - guess) <= PI / Rabs t)%R.
Proof.
  intros phase guess t Hph Ht. pose proof PI_RGT_0 as HP. set (y := (t * guess / (-2 * PI))%R). set (p := py_round y). pose proof (round_close y) as HR. fold p in HR.
  assert (HT : (0 < Rabs t)%R) by now apply Rabs_pos_lt. set (w := (2 * PI / Rabs t)%R). assert (Hw : (0 < w)%R) by (unfold w; apply Rdiv_lt_0_compat; lra).
  assert (HD : forall z, Rabs (candidate t phase z - guess) = (w * Rabs (phase + IZR z - y))%R).
  { intros z. replace (candidate t phase z - guess)%R with (-2 * PI / t * (phase + IZR z - y))%R by (unfold candidate, y; field; split; lra). rewrite Rabs_mult. f_equal. unfold w. unfold Rdiv. rewrite Rabs_mult, Rabs_inv. f_equal. rewrite Rabs_left by lra. ring. }
  assert (HI : forall c z, (IZR z <= IZR c - 1 \/ IZR z = IZR c \/ IZR c + 1 <= IZR z)%R).
  { intros c z. destruct (Z_lt_ge_dec z c) as [L|L]; [left; rewrite <- minus_IZR; apply IZR_le; lia|]. destruct (Z.eq_dec z c) as [->|N]; [right; left; reflexivity|right; right; rewrite <- plus_IZR; apply IZR_le; lia]. }
  assert (EW : (PI / Rabs t)%R = (w * (1 / 2))%R) by (unfold w; field; lra).
  unfold energy_of. cbv zeta. fold p. change (-2 * PI * (phase + IZR p - 0) / t)%R with (-2 * PI * (phase + IZR p - 0) / t)%R. rewrite Rminus_0_r. fold (candidate t phase p).
  replace (-2 * PI * (phase + IZR p - 1) / t)%R with (candidate t phase (p - 1)) by (unfold candidate; rewrite minus_IZR; f_equal; ring).
  set (a := (phase + IZR p - y)%R). assert (Ha : (-1 / 2 <= a < 3 / 2)%R) by (unfold a; unfold Rabs in HR; destruct (Rcase_abs (IZR p - y)); lra).
  assert (Hu : Rabs (candidate t phase (p - 1) - guess) = (w * Rabs (a - 1))%R) by (rewrite HD, minus_IZR; do 2 f_equal; unfold a; ring).
  assert (Hl : Rabs (candidate t phase p - guess) = (w * Rabs a)%R) by apply HD.
  assert (HW : forall x z, (w * Rabs x <= w * Rabs z <-> Rabs x <= Rabs z)%R) by (intros x z; split; [intros L; apply Rmult_le_reg_l with w; assumption|intros L; apply Rmult_le_compat_l; [lra|exact L]]).
  destruct (Rltb_spec (Rabs (candidate t phase p - guess)) (Rabs (candidate t phase (p - 1) - guess))) as [L|L].
  - exists p. split; [reflexivity|]. rewrite Hl, Hu in L. apply Rmult_lt_reg_l in L; [|exact Hw].
    assert (Hs : (Rabs a <= 1 / 2)%R) by (unfold Rabs in *; destruct (Rcase_abs a), (Rcase_abs (a - 1)); lra). split.
    + intros k'. rewrite Hl, HD. apply HW. destruct (HI p k') as [K|[K|K]]; unfold Rabs in *; destruct (Rcase_abs a), (Rcase_abs (phase + IZR k' - y)); unfold a in *; try lra.
    + rewrite Hl, EW. apply Rmult_le_compat_l; lra.
  - exists (p - 1)%Z. split; [reflexivity|]. rewrite Hl, Hu in L. apply Rnot_lt_le in L. apply HW in L.
    assert (Hs : (Rabs (a - 1) <= 1 / 2)%R) by (unfold Rabs in *; destruct (Rcase_abs a), (Rcase_abs (a - 1)); lra). split.
    + intros k'. rewrite Hu, HD. apply HW. destruct (HI (p - 1)%Z k') as [K|[K|K]]; rewrite minus_IZR in K; unfold Rabs in *; destruct (Rcase_abs a), (Rcase_abs (a - 1)), (Rcase_abs (phase + IZR k' - y)); unfold a in *; try lra.
    + rewrite Hu, EW. apply Rmult_le_compat_l; lra.
Qed.
Print Assumptions C74_energy_closest.
(** hence an eigenvalue less than pi/|t| away from the guess is recovered from its phase *)
Theorem C74_energy_recovered : forall E guess t phase z, (0 <= phase < 1)%R -> t <> 0%R -> (phase + IZR z = - (t * E) / (2 * PI))%R ->
  (Rabs (E - guess) < PI / Rabs t)%R -> energy_of phase (py_round (t * guess / (-2 * PI))) guess t = E.
Proof.
  intros E guess t phase z Hph Ht Hz HE. pose proof PI_RGT_0 as HP. destruct (C74_energy_closest phase guess t Hph Ht) as (k & Ek & Hmin & _). rewrite Ek.
  assert (EE : candidate t phase z = E) by (unfold candidate; rewrite Hz; field; lra). specialize (Hmin z). rewrite EE in Hmin.
  assert (HT : (0 < Rabs t)%R) by now apply Rabs_pos_lt. assert (HD : (Rabs (candidate t phase k - E) < 2 * PI / Rabs t)%R).
  { replace (candidate t phase k - E)%R with ((candidate t phase k - guess) - (E - guess))%R by ring. eapply Rle_lt_trans; [apply Rabs_triang|]. rewrite Rabs_Ropp. replace (2 * PI / Rabs t)%R with (PI / Rabs t + PI / Rabs t)%R by (field; lra). lra. }
  rewrite <- EE in HD at 1. replace (candidate t phase k - candidate t phase z)%R with (-2 * PI / t * IZR (k - z))%R in HD by (unfold candidate; rewrite minus_IZR; field; exact Ht). rewrite Rabs_mult in HD.
  replace (Rabs (-2 * PI / t)) with (2 * PI / Rabs t)%R in HD by (unfold Rdiv; rewrite Rabs_mult, Rabs_inv; f_equal; rewrite Rabs_left by lra; ring).
  assert (HS : (Rabs (IZR (k - z)) < 1)%R). { apply (Rmult_lt_reg_l (2 * PI / Rabs t)); [apply Rdiv_lt_0_compat; lra|]. lra. }
  rewrite <- abs_IZR in HS. apply lt_IZR in HS. assert (k = z) by lia. now subst.
Qed.
Print Assumptions C74_energy_recovered.
(** refuted: the documented window of +- 2 pi / t around the guess *)
Theorem C74_documented_window_refuted : exists E guess t phase z, (0 <= phase < 1)%R /\ (0 < t)%R /\ (phase + IZR z = - (t * E) / (2 * PI))%R /\
  (Rabs (E - guess) < 2 * PI / t)%R /\ energy_of phase (py_round (t * guess / (-2 * PI))) guess t <> E.
Proof.
  pose proof PI_RGT_0 as HP. exists (3 / 2 * PI)%R, 0%R, 1%R, (1 / 4)%R, (-1)%Z. split; [lra|]. split; [lra|]. split; [field; lra|]. split; [rewrite Rminus_0_r, Rabs_right; lra|].
  destruct (C74_energy_closest (1 / 4) 0 1 ltac:(lra) ltac:(lra)) as (k & -> & _ & HB). intros E. rewrite E, Rminus_0_r, Rabs_R1, Rabs_right in HB by lra. lra.
Qed.
Print Assumptions C74_documented_window_refuted.

Lemma phase_cons_gen r : forall i, (fold_right Rplus 0 (map (fun iz => INR (snd iz) / 2 ^ fst iz) (combine (seq i (length r)) r)) = / 2 ^ i * (2 * phase_of r))%R.
Proof.
  unfold phase_of. assert (G : forall r i, (fold_right Rplus 0 (map (fun iz => INR (snd iz) / 2 ^ fst iz) (combine (seq (S i) (length r)) r)) = / 2 * fold_right Rplus 0 (map (fun iz => INR (snd iz) / 2 ^ fst iz) (combine (seq i (length r)) r)))%R).
  { clear. induction r as [|z r IH]; intros i; cbn [length seq combine map fold_right fst snd]; [ring|]. rewrite IH. cbn [pow]. field. apply pow_nonzero. lra. }
  intros i. induction i as [|i IH]; [rewrite G; cbn [pow]; field|]. rewrite G, IH. cbn [pow]. field. apply pow_nonzero. lra.
Qed.
Lemma phase_cons z r : phase_of (z :: r) = (/ 2 * (INR z + phase_of r))%R.
Proof. unfold phase_of at 1. cbn [length seq combine map fold_right fst snd]. rewrite phase_cons_gen. field. Qed.
Lemma phase_range r : Forall (fun z => z < 2) r -> (0 <= phase_of r < 1)%R.
Proof.
  induction 1 as [|z r Hz _ IH]; [unfold phase_of; cbn; lra|]. rewrite phase_cons. destruct z as [|[|z]]; [cbn [INR]; lra|cbn [INR]; lra|lia].
Qed.

(** a readout given by more than half of the runs is the final readout, and its phase is the mode *)
Definition bits_ok (nanc : nat) (r : list nat) : Prop := length r = nanc /\ Forall (fun z => z < 2) r.
Definition times (r : list nat) (rs : list (list nat)) : nat := length (filter (fun x => if list_eq_dec Nat.eq_dec r x then true else false) rs).
Lemma occ_filter_le {A} (f g : A -> bool) l : (forall x, In x l -> f x = true -> g x = true) -> length (filter f l) <= length (filter g l).
Proof.
  intros H. induction l as [|x l IH]; [reflexivity|]. cbn [filter]. specialize (IH ltac:(intros y Hy; apply H; now right)). pose proof (H x (or_introl eq_refl)) as Hx. destruct (f x), (g x); cbn [length]; try lia. 
Qed.
Lemma filter_map {A B} (f : B -> bool) (h : A -> B) l : filter f (map h l) = map h (filter (fun x => f (h x)) l).
Proof. induction l as [|x l IH]; [reflexivity|]. cbn [map filter]. destruct (f (h x)); cbn [map]; now rewrite IH. Qed.
Lemma filter_disjoint {A} (f g : A -> bool) l : (forall x, f x = true -> g x = true -> False) -> length (filter f l) + length (filter g l) <= length l.
Proof.
  intros H. induction l as [|x l IH]; [reflexivity|]. cbn [filter length]. pose proof (H x). destruct (f x), (g x); cbn [length]; try lia.
Qed.
Lemma mode_majority v l : length l < 2 * occurrences v l -> mode l = v.
Proof.
  intros H. unfold mode. assert (HO : forall x, x <> v -> occurrences x l < occurrences v l).
  { intros x Hx. pose proof (filter_disjoint (fun y => if Req_EM_T x y then true else false) (fun y => if Req_EM_T v y then true else false) l) as D. unfold occurrences in *. enough (length (filter (fun y => if Req_EM_T x y then true else false) l) + length (filter (fun y => if Req_EM_T v y then true else false) l) <= length l) by lia. apply D. intros y. destruct (Req_EM_T x y), (Req_EM_T v y); intros; try discriminate. congruence. }
  assert (HIn : In v l). { assert (0 < occurrences v l) by lia. unfold occurrences in H0. destruct (filter (fun y => if Req_EM_T v y then true else false) l) as [|y r] eqn:E; [cbn in H0; lia|]. assert (In y (filter (fun y => if Req_EM_T v y then true else false) l)) by (rewrite E; now left). apply filter_In in H1. destruct H1 as (H1 & H2). destruct (Req_EM_T v y); [now subst|discriminate]. }
  set (step := fun best x => if Nat.ltb (occurrences best l) (occurrences x l) then x else if Nat.eqb (occurrences best l) (occurrences x l) && Rltb x best then x else best).
  assert (HK : forall l', fold_left step l' v = v).
  { induction l' as [|x l' IH]; [reflexivity|]. cbn [fold_left]. replace (step v x) with v; [exact IH|]. unfold step. destruct (Req_dec x v) as [->|N].
    - rewrite Nat.ltb_irrefl, Nat.eqb_refl, Rltb_false by lra. reflexivity.
    - specialize (HO x N). destruct (Nat.ltb_spec (occurrences v l) (occurrences x l)); [lia|]. destruct (Nat.eqb_spec (occurrences v l) (occurrences x l)); [lia|reflexivity]. }
  assert (HF : forall l' b, In v l' -> fold_left step l' b = v).
  { induction l' as [|x l' IH]; intros b HI; [destruct HI|]. cbn [fold_left]. destruct HI as [->|HI]; [|apply IH, HI]. replace (step b v) with v; [apply HK|]. unfold step. destruct (Req_dec b v) as [->|N].
    - rewrite Nat.ltb_irrefl, Nat.eqb_refl, Rltb_false by lra. reflexivity.
    - specialize (HO b N). destruct (Nat.ltb_spec (occurrences b l) (occurrences v l)); [reflexivity|lia]. }
  apply HF, HIn.
Qed.
Fixpoint column (i : nat) (rs : list (list nat)) : nat := match rs with [] => 0 | r :: rs' => nth i r 0 + column i rs' end.
Lemma column_eq nanc i rs : Forall (bits_ok nanc) rs -> i < nanc -> forall s, foreach rs (fun r s => do z <- py_get r i; Ok (s + z)) s = Ok (s + column i rs).
Proof.
  induction 1 as [|r rs Hr _ IH]; intros Hi s; cbn [foreach column]; [f_equal; lia|]. destruct Hr as (Hl & _). unfold py_get. rewrite (nth_error_nth' r 0) by lia. cbn [bind]. rewrite IH by exact Hi. f_equal. lia.
Qed.
Lemma column_bound nanc i rs b : Forall (bits_ok nanc) rs -> b < 2 -> i < nanc -> column i rs <= length rs /\
  length (filter (fun r => Nat.eqb (nth i r 0) b) rs) = if Nat.eqb b 1 then column i rs else length rs - column i rs.
Proof.
  intros H Hb Hi. induction H as [|r rs Hr _ (IH1 & IH2)]; [destruct b as [|[|]]; [split; reflexivity|split; reflexivity|lia]|]. cbn [column length filter]. destruct Hr as (Hl & Hf). rewrite Forall_forall in Hf.
  assert (Hz : nth i r 0 < 2) by (apply Hf, nth_In; lia). split; [lia|]. destruct (nth i r 0) as [|[|]]; [| |lia]; destruct b as [|[|]]; try lia; cbn [Nat.eqb length Nat.add] in *; rewrite ?IH2; lia.
Qed.
Lemma list_map_nth (r : list nat) : r = map (fun i => nth i r 0) (seq 0 (length r)).
Proof. induction r as [|z r IH]; [reflexivity|]. cbn [length seq map nth]. f_equal. rewrite <- seq_shift, map_map. exact IH. Qed.
Definition final_bits (aves : list R) : list nat := map (fun iave => if Rltb 0.5 iave then 1 else 0) aves.
Lemma post_shape guess t nruns nanc rs : Forall (bits_ok nanc) rs -> 1 <= nruns -> t <> 0%R ->
  let aves := map (fun i => (INR (column i rs) / INR nruns)%R) (seq 0 nanc) in
  qpe_post guess t nruns nanc rs = Ok (mkQpeResult (map phase_of rs) aves (final_bits aves) (phase_of (final_bits aves)) (energy_of (phase_of (final_bits aves)) (py_round (t * guess / (-2 * PI))) guess t) (mode (map phase_of rs)) (energy_of (mode (map phase_of rs)) (py_round (t * guess / (-2 * PI))) guess t)).
Proof.
  intros HB Hn Ht aves. unfold qpe_post. cbv zeta.
  assert (E : foreach (seq 0 nanc) (fun i a => do s <- foreach rs (fun r s => do z <- py_get r i; Ok (s + z)) 0; if Nat.eqb nruns 0 then Throw (PyError "ZeroDivisionError") else Ok (a ++ [INR s / INR nruns]%R)%list) [] = Ok aves).
  { unfold aves. enough (G : forall l, (forall i, In i l -> i < nanc) -> forall a0, foreach l (fun i a => do s <- foreach rs (fun r s => do z <- py_get r i; Ok (s + z)) 0; if Nat.eqb nruns 0 then Throw (PyError "ZeroDivisionError") else Ok (a ++ [INR s / INR nruns]%R)%list) a0 = Ok (a0 ++ map (fun i => (INR (column i rs) / INR nruns)%R) l)%list) by (apply (G (seq 0 nanc)); intros i Hi; apply in_seq in Hi; lia).
    replace (Nat.eqb nruns 0) with false by (symmetry; apply Nat.eqb_neq; lia). induction l as [|i l IH]; intros HS a0; cbn [foreach map]; [now rewrite app_nil_r|].
    rewrite (column_eq nanc i rs HB (HS i (or_introl eq_refl))). cbn [bind Nat.add]. rewrite IH by (intros; apply HS; now right). rewrite <- app_assoc. reflexivity. }
  rewrite E. cbn [bind]. replace (Rltb t 0 || Rltb 0 t) with true; [reflexivity|]. symmetry. apply orb_true_iff. destruct (Rtotal_order t 0) as [L|[L|L]]; [left; now apply Rltb_true|contradiction|right; now apply Rltb_true].
Qed.
Theorem C74_majority : forall guess t nanc rs r, Forall (bits_ok nanc) rs -> t <> 0%R -> length rs < 2 * times r rs ->
  exists res, qpe_post guess t (length rs) nanc rs = Ok res /\ qr_phases res = map phase_of rs /\ qr_readout res = r /\ qr_final_phase res = phase_of r /\ qr_mode_phase res = phase_of r /\
    qr_Egs res = qr_mode_energy res /\ exists k, qr_Egs res = candidate t (phase_of r) k /\ forall k', (Rabs (qr_Egs res - guess) <= Rabs (candidate t (phase_of r) k' - guess))%R.
Proof.
  intros guess t nanc rs r HB Ht HM. assert (Hn : 1 <= length rs). { destruct rs; [cbn in HM; lia|cbn; lia]. }
  rewrite (post_shape guess t (length rs) nanc rs HB Hn Ht). eexists. split; [reflexivity|]. cbn [qr_phases qr_readout qr_final_phase qr_mode_phase qr_Egs qr_mode_energy].
  assert (HR : bits_ok nanc r). { unfold times in HM. destruct (filter (fun x => if list_eq_dec Nat.eq_dec r x then true else false) rs) as [|y l] eqn:E; [cbn in HM; lia|]. assert (HI : In y (filter (fun x => if list_eq_dec Nat.eq_dec r x then true else false) rs)) by (rewrite E; now left). apply filter_In in HI. destruct HI as (H1 & H2). destruct (list_eq_dec Nat.eq_dec r y) as [->|]; [|discriminate]. rewrite Forall_forall in HB. now apply HB. }
  assert (EF : final_bits (map (fun i => (INR (column i rs) / INR (length rs))%R) (seq 0 nanc)) = r).
  { unfold final_bits. rewrite map_map. destruct HR as (Hl & Hf). transitivity (map (fun i => nth i r 0) (seq 0 nanc)); [|rewrite <- Hl; symmetry; apply list_map_nth]. apply map_ext_in. intros i Hi. apply in_seq in Hi. cbn [Nat.add] in Hi. destruct Hi as (_ & Hi).
    rewrite Forall_forall in Hf. assert (Hz : nth i r 0 < 2) by (apply Hf, nth_In; lia). destruct (column_bound nanc i rs (nth i r 0) HB Hz Hi) as (B1 & B2).
    assert (HT : times r rs <= length (filter (fun x => Nat.eqb (nth i x 0) (nth i r 0)) rs)) by (apply occ_filter_le; intros x _; destruct (list_eq_dec Nat.eq_dec r x) as [->|]; [intros _; apply Nat.eqb_refl|discriminate]).
    rewrite B2 in HT. assert (HL : (0 < INR (length rs))%R) by (apply lt_0_INR; lia). destruct (nth i r 0) as [|[|]]; [| |lia]; cbn [Nat.eqb] in HT.
    - rewrite Rltb_false; [reflexivity|]. apply (Rmult_le_reg_r (INR (length rs))); [exact HL|]. replace (INR (column i rs) / INR (length rs) * INR (length rs))%R with (INR (column i rs)) by (field; lra). assert (H2 : 2 * column i rs <= length rs) by lia. apply le_INR in H2. rewrite mult_INR in H2. cbn [INR] in H2. lra.
    - rewrite Rltb_true; [reflexivity|]. apply (Rmult_lt_reg_r (INR (length rs))); [exact HL|]. replace (INR (column i rs) / INR (length rs) * INR (length rs))%R with (INR (column i rs)) by (field; lra). assert (H2 : length rs < 2 * column i rs) by lia. apply lt_INR in H2. rewrite mult_INR in H2. cbn [INR] in H2. lra. }
  assert (EM : mode (map phase_of rs) = phase_of r).
  { apply mode_majority. rewrite map_length. unfold occurrences. rewrite filter_map, map_length. eapply Nat.lt_le_trans; [exact HM|]. apply Nat.mul_le_mono_l. apply occ_filter_le. intros x _. destruct (list_eq_dec Nat.eq_dec r x) as [->|]; [intros _; destruct (Req_EM_T (phase_of x) (phase_of x)); [reflexivity|congruence]|discriminate]. }
  rewrite EF, EM. split; [reflexivity|]. split; [reflexivity|]. split; [reflexivity|]. split; [reflexivity|]. split; [reflexivity|]. destruct (C74_energy_closest (phase_of r) guess t (phase_range r (proj2 HR)) Ht) as (k & Ek & Hmin & _). exists k. rewrite Ek. split; [reflexivity|exact Hmin].
Qed.
Print Assumptions C74_majority.
(** refuted: the final readout is one of the readouts *)
Theorem C74_bitwise_average_refuted : exists rs res, Forall (bits_ok 3) rs /\ length rs = 3 /\ qpe_post 0 1 3 3 rs = Ok res /\
  ~ In (qr_readout res) rs /\ ~ In (qr_final_phase res) (qr_phases res).
Proof.
  assert (HB : Forall (bits_ok 3) [[0; 1; 1]; [1; 0; 1]; [1; 1; 0]]) by (repeat constructor). exists [[0; 1; 1]; [1; 0; 1]; [1; 1; 0]]. eexists. split; [exact HB|]. split; [reflexivity|].
  rewrite (post_shape 0 1 3 3 _ HB ltac:(lia) ltac:(lra)). split; [reflexivity|]. cbn [qr_readout qr_final_phase qr_phases].
  assert (E : final_bits (map (fun i => (INR (column i [[0; 1; 1]; [1; 0; 1]; [1; 1; 0]]%nat) / INR 3)%R) (seq 0 3)) = [1; 1; 1]). { unfold final_bits. cbn [seq map column nth Nat.add]. replace (INR 2 / INR 3)%R with (2 / 3)%R by (cbn; lra). rewrite Rltb_true by lra. reflexivity. }
  rewrite E. split; [intros [H|[H|[H|[]]]]; discriminate|]. cbn [map In]. rewrite !phase_cons. replace (phase_of []) with 0%R by reflexivity. cbn [INR]. lra.
Qed.
Print Assumptions C74_bitwise_average_refuted.
Theorem C74_raises : forall o guess t p prec draws,
  (p = 1%R -> qpe_run o guess t p prec draws = Throw (PyError "ZeroDivisionError")) /\
  (forall nanc rs, 1 <= nanc -> Forall (bits_ok nanc) rs -> qpe_post guess t 0 nanc rs = Throw (PyError "ZeroDivisionError")) /\
  (forall nanc rs, Forall (bits_ok nanc) rs -> 1 <= length rs -> qpe_post guess 0 (length rs) nanc rs = Throw (PyError "ZeroDivisionError")) /\
  qpe_run_realistic = Throw (PyError "NotImplementedError").
Proof.
  intros o guess t p prec draws. split; [|split; [|split]].
  - intros ->. unfold qpe_run, n_ancilla. cbv zeta. rewrite Rminus_diag_eq, !Rltb_false by lra. reflexivity.
  - intros nanc rs Hn HB. unfold qpe_post. cbv zeta. destruct nanc as [|nanc]; [lia|]. cbn [seq foreach]. rewrite (column_eq (S nanc) 0 rs HB) by lia. reflexivity.
  - intros nanc rs HB Hn. unfold qpe_post. cbv zeta.
    assert (G : forall l, (forall i, In i l -> i < nanc) -> forall a0, exists a, foreach l (fun i a => do s <- foreach rs (fun r s => do z <- py_get r i; Ok (s + z)) 0; if Nat.eqb (length rs) 0 then Throw (PyError "ZeroDivisionError") else Ok (a ++ [INR s / INR (length rs)]%R)%list) a0 = Ok a).
    { replace (Nat.eqb (length rs) 0) with false by (symmetry; apply Nat.eqb_neq; lia). induction l as [|i l IH]; intros HS a0; cbn [foreach]; [eauto|]. rewrite (column_eq nanc i rs HB (HS i (or_introl eq_refl))). cbn [bind]. apply IH. intros j Hj. apply HS. now right. }
    destruct (G (seq 0 nanc) ltac:(intros i Hi; apply in_seq in Hi; lia) []) as (a & Ea). rewrite Ea. cbn [bind]. rewrite !Rltb_false by lra. reflexivity.
  - reflexivity.
Qed.
Print Assumptions C74_raises.
Example C74_nonvacuous : Forall (bits_ok 2) [[0; 1]; [1; 1]; [0; 1]] /\ length [[0; 1]; [1; 1]; [0; 1]] < 2 * times [0; 1] [[0; 1]; [1; 1]; [0; 1]] /\ phase_of [0; 1] = (1 / 4)%R.
Proof. split; [repeat constructor|]. split; [cbn; lia|]. rewrite !phase_cons. unfold phase_of. cbn. lra. Qed.
