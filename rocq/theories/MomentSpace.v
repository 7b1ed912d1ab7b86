(** Determinants and denominators of the moment corrections; the pool operators of SPQE and of
    the moment corrections acting on the reference. *)
From Coq Require Import Reals String List Arith NArith ZArith Bool Lia Lra Permutation Sorted.
From Verif Require Import CBase Result Bits Spec OpSpec SQSpec GateModel ComputerModel SafeProofs LibProofs CleanProofs SimProofs CircuitModel PauliProofs OperatorModel MeasureModel MeasureProofs SQModel SQPhase SQProofs SQPoolSpec SQPoolModel SQPoolProofs SQPoolOps PyModel PyApply CompactModel CompactAct CompactApply CompactProofs ExpSpec ExpProofs FermiProofs AnsatzSpec AnsatzModel AnsatzProofs AnsatzJW GradModel GradSpec GradCalc GradProofs GradAnsatz ResModel ResProofs SelectModel SelectSpec SelectProofs SpqeProofs PropOperator PropMeasure PropAnsatz PropGrad PropRes PropSpqe MomentModel.
From Verif Require StateProofs.
Import ListNotations.
Local Open Scope nat_scope.

(** ---- one determinant ---- *)
Lemma entry_split srt ref irreps orb_e max I st : moment_entry srt ref irreps orb_e max I st =
  (do pool <- spqe_entry srt ref irreps 0 max I (fst st);
   if Nat.eqb (length pool) (length (fst st)) then Ok st else
   do eo <- energy_sum orb_e (pick (py_bin (N.lxor (spqe_ref ref) I)) ref true);
   do eu <- energy_sum orb_e (pick (py_bin (N.lxor (spqe_ref ref) I)) ref false);
   Ok (pool, (snd st ++ [(eo - eu)%C])%list)).
Proof.
  unfold moment_entry, spqe_entry. destruct (_ && _); [|cbn [bind]; now rewrite Nat.eqb_refl]. destruct (find_irrep _ _) as [g|]; [|reflexivity]. cbn [bind]. destruct (N.eqb g 0); [|cbn [bind]; now rewrite Nat.eqb_refl].
  destruct (N.eqb (N.lxor (spqe_ref ref) I) 0); [cbn [bind]; now rewrite Nat.eqb_refl|]. destruct (Nat.leb _ max); [|cbn [bind]; now rewrite Nat.eqb_refl].
  destruct (sq_simplify _ _) as [t|]; [|reflexivity]. cbn [bind]. rewrite app_length. cbn [length]. destruct (Nat.eqb_spec (length (fst st) + 1) (length (fst st))); [lia|reflexivity].
Qed.
Lemma sum_perm orb_e l l' : Permutation l l' -> orbital_sum orb_e l = orbital_sum orb_e l'.
Proof. apply Csum_perm. Qed.
Definition denominator (orb_e : list C) (R D : N) (n : nat) : C := (orbital_sum orb_e (holes R D n) - orbital_sum orb_e (particles R D n))%C.
Lemma entries_ok srt ref m irreps orb_e max : legal_sort srt -> length ref = 2 * m -> 2 * m <= 64 -> m <= length irreps -> length orb_e = 2 * m -> forall dets st, (forall D, In D dets -> (D < 2 ^ N.of_nat (2 * m))%N) ->
  exists added den, foreach dets (moment_entry srt ref irreps orb_e max) st = Ok ((fst st ++ added)%list, (snd st ++ den)%list) /\ map fst added = filter (in_pool m irreps 0 max (spqe_ref ref)) dets /\
    Forall (fun e => Permutation (snd e) (excitation (spqe_ref ref) (fst e) (2 * m))) added /\ Forall2 (fun e d => d = denominator orb_e (spqe_ref ref) (fst e) (2 * m)) added den.
Proof.
  intros HS HL Hm HI HO. induction dets as [|D dets IH]; intros st HD; [exists [], []; rewrite !app_nil_r; destruct st; repeat split; constructor|]. cbn [foreach filter].
  pose proof (HD D (or_introl eq_refl)) as LD. rewrite entry_split.
  pose proof (spqe_entry_spec srt ref m irreps 0 max D (fst st) HS HL Hm HI LD) as HE. destruct (in_pool m irreps 0 max (spqe_ref ref) D).
  - destruct HE as (t & -> & HP). cbn [bind]. rewrite app_length. cbn [length]. destruct (Nat.eqb_spec (length (fst st) + 1) (length (fst st))); [lia|].
    pose proof (spqe_ref_lt ref) as HR. rewrite HL in HR. set (R := spqe_ref ref) in *. rewrite !pick_py by (rewrite HL; apply lxor_lt; assumption). rewrite HL.
    assert (EH : orbitals (fun p => occ (N.lxor R D) p && Bool.eqb (nth p ref false) true) (2 * m) = holes R D (2 * m)).
    { apply orbitals_ext. intros p _. rewrite <- spqe_ref_bit. fold R. unfold occ. rewrite N.lxor_spec. destruct (N.testbit R _), (N.testbit D _); reflexivity. }
    assert (EP : orbitals (fun p => occ (N.lxor R D) p && Bool.eqb (nth p ref false) false) (2 * m) = particles R D (2 * m)).
    { apply orbitals_ext. intros p _. rewrite <- spqe_ref_bit. fold R. unfold occ. rewrite N.lxor_spec. destruct (N.testbit R _), (N.testbit D _); reflexivity. }
    rewrite EH, EP. assert (B : forall f, Forall (fun p => p < length orb_e) (rev (orbitals f (2 * m)))) by (intros f; apply Forall_rev, Forall_forall; intros p Hp; apply orbitals_in in Hp; lia).
    rewrite !energy_sum_ok by apply B. cbn [bind]. rewrite <- !(sum_perm _ _ _ (Permutation_rev _)).
    match goal with |- context [foreach dets _ ?s1] => destruct (IH s1) as (ad & den & -> & HF & HA & HB) end; [intros; apply HD; now right|]. cbn [fst snd].
    eexists ((D, t) :: ad), (_ :: den). split; [rewrite <- !app_assoc; reflexivity|]. cbn [map fst]. rewrite HF. split; [reflexivity|]. split; constructor; (assumption || reflexivity).
  - rewrite HE. cbn [bind]. rewrite Nat.eqb_refl. apply IH. intros; apply HD; now right.
Qed.

(** ---- T - T^dagger on the reference ---- *)
Lemma flips_reach R D n : (R < 2 ^ N.of_nat n)%N -> (D < 2 ^ N.of_nat n)%N -> flips (particles R D n ++ holes R D n) (N.to_nat R) = N.to_nat D.
Proof.
  intros HR HD. assert (ND : NoDup (particles R D n ++ holes R D n)).
  { assert (N1 : NoDup (particles R D n)) by apply dsorted_nodup, orbitals_sorted. assert (N2 : NoDup (holes R D n)) by apply dsorted_nodup, orbitals_sorted.
    assert (DJ : forall p, In p (particles R D n) -> ~ In p (holes R D n)) by (intros p H1 H2; apply orbitals_in in H1, H2; destruct (occ R p), (occ D p); cbn in *; destruct H1, H2; discriminate).
    revert N1 DJ. generalize (particles R D n) as l. induction l as [|p l IH]; intros N1 DJ; [exact N2|]. cbn [app]. inversion N1 as [|? ? Np Nl]; subst. constructor; [|apply IH; [exact Nl|intros q Hq; apply DJ; now right]]. intros H. apply in_app_or in H. destruct H as [H|H]; [now apply Np|]. now apply (DJ p (or_introl eq_refl)). }
  apply bits_ext. intros k. rewrite bit_flips by exact ND. rewrite !FermiProofs.occ_bit. destruct (CompactModel.mem k (particles R D n ++ holes R D n)) eqn:E.
  - apply mem_In in E. apply in_app_or in E. destruct E as [E|E]; apply orbitals_in in E; destruct E as (_ & E); destruct (occ R k), (occ D k); cbn in *; congruence.
  - destruct (Nat.lt_ge_cases k n) as [Lk|Lk].
    + destruct (occ R k) eqn:E1, (occ D k) eqn:E2; cbn; try reflexivity; exfalso; assert (K : In k (particles R D n ++ holes R D n)) by (apply in_or_app; (left + right); apply orbitals_in; rewrite E1, E2; split; [exact Lk|reflexivity]); apply mem_In in K; congruence.
    + rewrite (occ_above R n k HR Lk), (occ_above D n k HD Lk). reflexivity.
Qed.

Lemma pow_rank19 k : k <= 38 -> (1e-12 * 2 ^ k < 1)%R.
Proof. intros L. assert (2 ^ k <= 2 ^ 38)%R by (apply Rle_pow; [lra|exact L]). assert (2 ^ 38 = 274877906944)%R by (cbn; ring). lra. Qed.
Lemma pair_apply srt qe a P H n qc D : legal_sort srt -> P <> [] -> H <> [] -> length P = length H -> length P <= 19 -> dsorted P -> dsorted H -> NoDup (P ++ H) -> Forall (fun p => p < n) (P ++ H) -> Rabs a = 1%R -> act_set P H D = true ->
  wf_computer qc -> nqubit qc = n -> psi_of qc = ket D ->
  exists q k qc', jw_transform srt qe (Antihermitian a P H) = Ok q /\ (k = 1 \/ k = -1)%R /\ apply_operator qc (snd q) = Ok qc' /\ wf_computer qc' /\ nqubit qc' = n /\ psi_of qc' = sscale (RtoC k) (ket (flips (P ++ H) D)) /\ act qe (Antihermitian a P H) (ket D) == sscale (RtoC k) (ket (flips (P ++ H) D)).
Proof.
  intros HS NP NH LL L19 DP DH ND BB Ha AS W Nq PS. assert (NE : P <> H) by (intros ->; destruct H as [|x r]; [contradiction|]; cbn [app] in ND; inversion ND as [|? ? Q _]; subst; apply Q, in_or_app; right; now left).
  destruct (jw_pair_exists qe P H NP NE DP DH ltac:(lia)) as (q & JP). assert (L38 : length P + length H <= 38) by lia. pose proof (pow_rank19 _ L38) as PR.
  eexists. set (K := op_mult_coeffs q (RtoC a)). assert (CK : OperatorProofs.canonical_op K) by (unfold K; apply mult_canonical; apply JP).
  assert (RK : OperatorProofs.in_reg n K) by (apply Forall_app in BB; unfold K, op_mult_coeffs, OperatorProofs.in_reg; apply Forall_map; cbn [snd]; apply (jp_reg _ _ _ _ JP); apply BB).
  destruct (C18_apply_operator_partial qc K W) as (q2 & E2 & W2 & N2 & A2); [rewrite Nq; now apply pauli_applicable|].
  destruct (excite_ket qe a P H D NP NH LL DP DH ND AS) as (k & Hk & EK). exists (a * k)%R, q2.
  assert (EA : act qe (Antihermitian a P H) (ket D) == sscale (RtoC (a * k)) (ket (flips (P ++ H) D))) by (intros J; unfold sscale; apply EK).
  split; [apply (jp_jw _ _ _ _ JP srt a HS); lra|]. split; [destruct (Rcase_abs a); [rewrite Rabs_left in Ha by lra|rewrite Rabs_right in Ha by lra]; destruct Hk as [-> | ->]; (left; nra) || (right; nra)|].
  split; [exact E2|]. split; [exact W2|]. split; [congruence|]. split; [|exact EA]. apply state_eq. eapply seq_trans; [exact A2|]. rewrite PS. eapply seq_trans; [|exact EA]. intros J. unfold K. rewrite mult_act, (jp_act _ _ _ _ JP). symmetry. apply AnsatzGen.act_pair.
Qed.
(** the operator of the pool belonging to the determinant D, on the reference R *)
Lemma excitation_apply srt qe n R D t qc : legal_sort srt -> (R < 2 ^ N.of_nat n)%N -> (D < 2 ^ N.of_nat n)%N -> length (particles R D n) = length (holes R D n) -> 1 <= length (holes R D n) <= 19 -> Permutation t (excitation R D n) ->
  wf_computer qc -> nqubit qc = n -> psi_of qc = ket (N.to_nat R) ->
  exists q k qc', jw_transform srt qe t = Ok q /\ (k = 1 \/ k = -1)%R /\ apply_operator qc (snd q) = Ok qc' /\ wf_computer qc' /\ nqubit qc' = n /\ psi_of qc' = sscale (RtoC k) (ket (N.to_nat D)) /\ act qe t (ket (N.to_nat R)) == sscale (RtoC k) (ket (N.to_nat D)).
Proof.
  intros HS HR HD LL LB HP W Nq PS. set (P := particles R D n) in *. set (H := holes R D n) in *.
  assert (DP : dsorted P) by apply orbitals_sorted. assert (DH : dsorted H) by apply orbitals_sorted. assert (NP : P <> []) by (intros E; rewrite E in LL; cbn in LL; lia). assert (NH : H <> []) by (intros E; rewrite E in LB; cbn in LB; lia).
  assert (DJ : forall p, In p P -> ~ In p H) by (intros p H1 H2; apply orbitals_in in H1, H2; destruct (occ R p), (occ D p); cbn in *; destruct H1, H2; discriminate).
  assert (NA : forall A B : list nat, NoDup A -> NoDup B -> (forall p, In p A -> ~ In p B) -> NoDup (A ++ B)).
  { intros A B NA NB. induction NA as [|p l Np Nl IH]; intros J; [exact NB|]. cbn [app]. constructor; [|apply IH; intros q Hq; apply J; now right]. intros X. apply in_app_or in X. destruct X as [X|X]; [now apply Np|]. now apply (J p (or_introl eq_refl)). }
  assert (BP : Forall (fun p => p < n) P) by (apply Forall_forall; intros p Hp; now apply orbitals_in in Hp). assert (BH : Forall (fun p => p < n) H) by (apply Forall_forall; intros p Hp; now apply orbitals_in in Hp).
  assert (AS : act_set P H (N.to_nat R) = true).
  { unfold act_set. apply orb_true_iff. right. apply andb_true_iff. split; [apply none_In|apply full_In]; intros p Hp; apply orbitals_in in Hp; rewrite FermiProofs.occ_bit; destruct (occ R p), (occ D p); cbn in *; destruct Hp; congruence. }
  pose proof (flips_reach R D n HR HD) as FR. fold P H in FR.
  assert (M1 : (- C1)%C = RtoC (-1)) by (apply C_ext; cbn; ring). assert (M2 : C1 = RtoC (- -1)) by (apply C_ext; cbn; ring).
  assert (HT : t = Antihermitian 1 P H \/ t = Antihermitian (-1) H P).
  { apply Permutation_sym in HP. apply Permutation_length_2_inv in HP. destruct HP as [-> | ->]; [left|right]; unfold Antihermitian; fold P H; rewrite M1; [reflexivity|rewrite <- M2; reflexivity]. }
  destruct HT as [-> | ->].
  - destruct (pair_apply srt qe 1 P H n qc (N.to_nat R)) as (q & k & qc' & X); try assumption; [lia|apply NA; [now apply dsorted_nodup|now apply dsorted_nodup|exact DJ]|apply Forall_app; now split|apply Rabs_R1|]. rewrite FR in X. exists q, k, qc'. exact X.
  - destruct (pair_apply srt qe (-1) H P n qc (N.to_nat R)) as (q & k & qc' & X); try assumption; [now symmetry|lia|apply NA; [now apply dsorted_nodup|now apply dsorted_nodup|intros p X Y; now apply (DJ p)]|apply Forall_app; now split|rewrite Rabs_left by lra; ring|now rewrite act_set_swap|]. rewrite (flips_perm (H ++ P) (P ++ H)) in X by apply Permutation_app_comm. rewrite FR in X. exists q, k, qc'. exact X.
Qed.
