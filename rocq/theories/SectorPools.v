(** Quantum numbers of the operators of the pools. *)
From Coq Require Import Reals String List Arith ZArith NArith Bool Lia Lra Sorted Permutation.
From Verif Require Import CBase Result Bits Spec OpSpec SQSpec SQModel SQPoolSpec SQPoolModel SQPoolOps ExpSpec AnsatzSpec SpinSpec GsdProofs SaModel SaProofs SaOps AnsatzSa PropPool PropGsd PropAnsatz PropSpin SectorProofs.
Import ListNotations.
Local Open Scope nat_scope.

(** the same number of electrons, S_z and irrep as determinant I0, for m spatial orbitals *)
Definition SameSymmetry (m : nat) (irreps : list N) (I0 I : nat) : Prop :=
  n_electrons (2 * m) I = n_electrons (2 * m) I0 /\ two_sz m I = two_sz m I0 /\ determinant_irrep (2 * m) irreps I = determinant_irrep (2 * m) irreps I0.

(** ---- quantum numbers as weights ---- *)
Definition sz_w (p : nat) : Z := if Nat.even p then 1%Z else (-1)%Z.
Definition irrep_w (irreps : list N) (k : N) (p : nat) : Z := Z.b2z (N.testbit (nth (p / 2) irreps 0%N) k).
Lemma electrons_weight n I : weight (fun _ => 1%Z) n I = Z.of_nat (n_electrons n I).
Proof. unfold weight, n_electrons, wlist. induction (filter (bit I) (seq 0 n)) as [|x l IH]; [reflexivity|]. cbn [map fold_right length]. rewrite IH. lia. Qed.
Lemma wlist_one l : wlist (fun _ => 1%Z) l = Z.of_nat (length l).
Proof. unfold wlist. induction l as [|x l IH]; [reflexivity|]. cbn [map fold_right length]. rewrite IH. lia. Qed.
Lemma even_double k : Nat.even (2 * k) = true.
Proof. rewrite Nat.even_mul. reflexivity. Qed.
Lemma even_double_S k : Nat.even (2 * k + 1) = false.
Proof. rewrite Nat.even_add, even_double. reflexivity. Qed.
Lemma sz_weight m I : weight sz_w (2 * m) I = two_sz m I.
Proof.
  unfold weight, two_sz, n_up, n_down. induction m as [|m IH]; [reflexivity|]. replace (2 * S m) with (2 * m + 2) by lia. replace (S m) with (m + 1) by lia.
  rewrite !seq_app, !filter_app, !app_length, wlist_app, IH. change (seq (0 + 2 * m) 2) with [2 * m; S (2 * m)]. change (seq (0 + m) 1) with [m]. replace (S (2 * m)) with (2 * m + 1) by lia. cbn [filter].
  unfold wlist. destruct (bit I (2 * m)), (bit I (2 * m + 1)); cbn [map fold_right length]; unfold sz_w; rewrite ?even_double, ?even_double_S; lia.
Qed.
Lemma irrep_odd irr k l : N.testbit (total_irrep irr l) k = Z.odd (wlist (irrep_w irr k) l).
Proof.
  unfold total_irrep, wlist. induction l as [|p l IH]; [reflexivity|]. cbn [map fold_right]. rewrite N.lxor_spec, Z.odd_add, IH. f_equal. unfold irrep_w. now destruct (N.testbit (nth (p / 2) irr 0%N) k).
Qed.
Lemma total_app irr a b : total_irrep irr (a ++ b) = N.lxor (total_irrep irr a) (total_irrep irr b).
Proof. unfold total_irrep. rewrite map_app, fold_right_app. induction (map _ a) as [|x l IH]; cbn [fold_right]; [now rewrite N.lxor_0_l|]. now rewrite IH, N.lxor_assoc. Qed.

(** a term that moves electrons within the 2m spin orbitals, keeping spin and irrep *)
Definition Symmetric (m : nat) (irreps : list N) (P H : list nat) : Prop :=
  Forall (fun p => p < 2 * m) P /\ Forall (fun p => p < 2 * m) H /\ length P = length H /\ wlist sz_w P = wlist sz_w H /\ total_irrep irreps P = total_irrep irreps H.
Lemma symmetric_swap m irr P H : Symmetric m irr P H -> Symmetric m irr H P.
Proof. intros (A & B & C & D & E). repeat split; auto. Qed.
Lemma within_impl (S S' : nat -> Prop) psi : (forall I, S I -> S' I) -> Within S psi -> Within S' psi.
Proof. intros H W I HI. apply H, W, HI. Qed.
Lemma symmetric_keeps m irr qe o I0 : Forall (fun t => Symmetric m irr (fcre t) (fann t)) o -> forall psi, Within (SameSymmetry m irr I0) psi -> Within (SameSymmetry m irr I0) (act qe o psi).
Proof.
  intros F psi W.
  assert (G : forall w (S : Z -> Prop), (forall P H, Symmetric m irr P H -> forall z, S (z - wlist w P + wlist w H)%Z -> S z) -> Within (fun I => S (weight w (2 * m) I)) psi -> Within (fun I => S (weight w (2 * m) I)) (act qe o psi)).
  { intros w S HS. apply act_within. eapply Forall_impl; [|exact F]. intros t Ht. split; [apply Ht|]. split; [apply Ht|]. now apply HS. }
  intros I HI. split; [|split].
  - apply Nat2Z.inj. rewrite <- !electrons_weight. refine (G (fun _ => 1%Z) (fun z => z = weight (fun _ => 1%Z) (2 * m) I0) _ _ I HI).
    + intros P H (_ & _ & E & _) z. rewrite !wlist_one, E. lia.
    + revert W. apply within_impl. intros J (E & _). rewrite !electrons_weight. now rewrite E.
  - rewrite <- !sz_weight. refine (G sz_w (fun z => z = weight sz_w (2 * m) I0) _ _ I HI).
    + intros P H (_ & _ & _ & E & _) z. rewrite E. lia.
    + revert W. apply within_impl. intros J (_ & E & _). now rewrite !sz_weight.
  - apply N.bits_inj. intros k. unfold determinant_irrep. rewrite !irrep_odd. fold (weight (irrep_w irr k) (2 * m) I). fold (weight (irrep_w irr k) (2 * m) I0). refine (G (irrep_w irr k) (fun z => Z.odd z = Z.odd (weight (irrep_w irr k) (2 * m) I0)) _ _ I HI).
    + intros P H (_ & _ & _ & _ & E) z Hz. rewrite <- Hz. apply (f_equal (fun x => N.testbit x k)) in E. rewrite !irrep_odd in E. rewrite Z.odd_add, Z.odd_sub, E. now destruct (Z.odd z), (Z.odd (wlist (irrep_w irr k) H)).
    + revert W. apply within_impl. intros J (_ & _ & E). unfold weight. rewrite <- !irrep_odd. unfold determinant_irrep in E. now rewrite E.
Qed.
(** ---- excitation pools ---- *)
Lemma particles_weight w R D n : (wlist w (particles R D n) - wlist w (holes R D n) = wlist w (orbitals (occ D) n) - wlist w (orbitals (occ R) n))%Z.
Proof.
  unfold particles, holes. induction n as [|n IH]; [reflexivity|]. cbn [orbitals]. unfold wlist in *. destruct (occ D n), (occ R n); cbn [negb andb map fold_right]; lia.
Qed.
Lemma spin_orbitals m D : wlist sz_w (orbitals (occ D) (2 * m)) = (Z.of_nat (electrons 0 m D) - Z.of_nat (electrons 1 m D))%Z.
Proof.
  induction m as [|m IH]; [reflexivity|]. replace (2 * S m) with (S (S (2 * m))) by lia. cbn [orbitals electrons]. replace (S (2 * m)) with (2 * m + 1) by lia. rewrite Nat.add_0_r.
  assert (S1 : sz_w (2 * m + 1) = (-1)%Z) by (unfold sz_w; now rewrite even_double_S). assert (S0 : sz_w (2 * m) = 1%Z) by (unfold sz_w; now rewrite even_double).
  destruct (occ D (2 * m + 1)), (occ D (2 * m)); unfold wlist in *; cbn [map fold_right]; rewrite ?S1, ?S0; lia.
Qed.

Lemma excitation_symmetric m irr max R D : Excited m irr max R D -> Symmetric m irr (particles R D (2 * m)) (holes R D (2 * m)).
Proof.
  intros (_ & HE & _ & HI). assert (B : forall f, Forall (fun p => p < 2 * m) (orbitals f (2 * m))) by (intros f; apply Forall_forall; intros p Ip; apply orbitals_in in Ip; apply Ip).
  split; [apply B|]. split; [apply B|]. split.
  { pose proof (particles_weight (fun _ => 1%Z) R D (2 * m)) as Q. rewrite !wlist_one in Q. pose proof (electron_count R m) as QR. pose proof (electron_count D m) as QD. rewrite !HE in QD by lia. lia. }
  split.
  - pose proof (particles_weight sz_w R D (2 * m)) as Q. rewrite !spin_orbitals, !HE in Q by lia. lia.
  - rewrite total_app in HI. apply N.lxor_eq in HI. now symmetry.
Qed.
Lemma permuted_symmetric m irr o o' : Permutation o o' -> Forall (fun t => Symmetric m irr (fcre t) (fann t)) o' -> Forall (fun t => Symmetric m irr (fcre t) (fann t)) o.
Proof. intros Pm. rewrite !Forall_forall. intros F t It. apply F. now apply (Permutation_in t Pm). Qed.
Lemma pair_symmetric m irr a b P H : Symmetric m irr P H -> Forall (fun t => Symmetric m irr (fcre t) (fann t)) [((a, P), H); ((b, H), P)].
Proof. intros S. constructor; [exact S|]. constructor; [now apply symmetric_swap|constructor]. Qed.
Lemma even_weight l : wlist sz_w l = (2 * Z.of_nat (length (filter Nat.even l)) - Z.of_nat (length l))%Z.
Proof. unfold wlist, sz_w. induction l as [|x l IH]; [reflexivity|]. cbn [map fold_right filter length]. destruct (Nat.even x); cbn [length]; lia. Qed.
Lemma generalized_symmetric m irr P H : Generalized m irr P H -> Symmetric m irr P H.
Proof.
  intros (_ & LL & _ & _ & _ & B & HE & HI). split; [apply Forall_forall; intros p Ip; apply B; now left|]. split; [apply Forall_forall; intros p Ip; apply B; now right|]. split; [now symmetry|]. split; [rewrite !even_weight, HE, LL; reflexivity|]. rewrite total_app in HI. now apply N.lxor_eq in HI.
Qed.
(** ---- the spin-adapted pool ---- *)
Local Notation Sym m irr := (Forall (fun t => Symmetric m irr (fcre t) (fann t))).
Lemma half_up k : 2 * k / 2 = k.
Proof. rewrite Nat.mul_comm. now apply Nat.div_mul. Qed.
Lemma half_down k : (2 * k + 1) / 2 = k.
Proof. rewrite (Nat.mul_comm 2 k), Nat.div_add_l by discriminate. change (1 / 2) with 0. lia. Qed.
Definition sp (up : bool) (k : nat) : nat := if up then 2 * k else 2 * k + 1.
Lemma sp_half u k : sp u k / 2 = k.
Proof. destruct u; [apply half_up|apply half_down]. Qed.
Lemma sp_sz u k : sz_w (sp u k) = if u then 1%Z else (-1)%Z.
Proof. unfold sz_w. destruct u; cbn [sp]; [now rewrite even_double|now rewrite even_double_S]. Qed.
Lemma sp_lt u k m : k < m -> sp u k < 2 * m.
Proof. destruct u; cbn [sp]; lia. Qed.
Lemma four_symmetric m irr a b i j (u v x y : bool) : a < m -> b < m -> i < m -> j < m -> N.lxor (nth a irr 0%N) (nth b irr 0%N) = N.lxor (nth i irr 0%N) (nth j irr 0%N) ->
  ((if u then 1 else -1) + (if v then 1 else -1) = (if x then 1 else -1) + (if y then 1 else -1))%Z -> Symmetric m irr [sp u a; sp v b] [sp x i; sp y j].
Proof.
  intros A B I J E W. split; [repeat constructor; now apply sp_lt|]. split; [repeat constructor; now apply sp_lt|]. split; [reflexivity|]. split.
  - unfold wlist. cbn [map fold_right]. rewrite !sp_sz. lia.
  - unfold total_irrep. cbn [map fold_right]. rewrite !sp_half, !N.lxor_0_r. exact E.
Qed.
Lemma add_symmetric m irr c p q r s o : Symmetric m irr [p; q] [r; s] -> Sym m irr o -> Sym m irr (add_pair c p q r s o).
Proof. intros S F. unfold add_pair. destruct (_ && _); [|exact F]. unfold sq_add_term. apply Forall_app. split; [exact F|]. constructor; [exact S|constructor]. Qed.
Local Ltac spin x := match x with 2 * ?k + 1 => constr:(pair false k) | 2 * ?k => constr:(pair true k) end.
Local Ltac four := match goal with |- Symmetric ?m ?irr [?p; ?q] [?r; ?s] => let p' := spin p in let q' := spin q in let r' := spin r in let s' := spin s in
  exact (four_symmetric m irr (snd p') (snd q') (snd r') (snd s') (fst p') (fst q') (fst r') (fst s') ltac:(assumption) ltac:(assumption) ltac:(assumption) ltac:(assumption) ltac:(assumption) eq_refl) end.
Lemma doubles_symmetric m irr i j a b : i < m -> j < m -> a < m -> b < m -> total_irrep irr [2 * i; 2 * j; 2 * a; 2 * b] = 0%N -> Sym m irr (sa_double_a i j a b) /\ Sym m irr (sa_double_b i j a b).
Proof.
  intros I J A B E. unfold total_irrep in E. cbn [map fold_right] in E. rewrite !half_up, N.lxor_0_r, <- N.lxor_assoc in E. apply N.lxor_eq in E.
  assert (E1 := eq_sym E). assert (E2 : N.lxor (nth b irr 0%N) (nth a irr 0%N) = N.lxor (nth j irr 0%N) (nth i irr 0%N)) by (rewrite N.lxor_comm, E1; apply N.lxor_comm). assert (E3 := eq_sym E2).
  assert (E4 : N.lxor (nth a irr 0%N) (nth b irr 0%N) = N.lxor (nth j irr 0%N) (nth i irr 0%N)) by (rewrite E1; apply N.lxor_comm). assert (E5 := eq_sym E4).
  split; [unfold sa_double_a|unfold sa_double_b]; cbv zeta; repeat (apply add_symmetric; [four|]); constructor.
Qed.
Lemma single_symmetric m irr i a : i < m -> a < m -> total_irrep irr [2 * i; 2 * a] = 0%N -> Sym m irr (sa_single i a).
Proof.
  intros I A E. unfold total_irrep in E. cbn [map fold_right] in E. rewrite !half_up, N.lxor_0_r in E. apply N.lxor_eq in E.
  assert (G : forall u, Symmetric m irr [sp u a] [sp u i]). { intros u. split; [repeat constructor; now apply sp_lt|]. split; [repeat constructor; now apply sp_lt|]. split; [reflexivity|]. split; [unfold wlist; cbn [map fold_right]; now rewrite !sp_sz|]. unfold total_irrep. cbn [map fold_right]. rewrite !sp_half. now rewrite E. }
  pose proof (G true) as G1. pose proof (G false) as G0. unfold sa_single, sq_add_term. cbv zeta. cbn [app]. constructor; [exact G1|]. constructor; [exact G0|]. constructor; [exact (symmetric_swap _ _ _ _ G1)|]. constructor; [exact (symmetric_swap _ _ _ _ G0)|]. constructor.
Qed.
Lemma two_symmetric m irr P P' H H' : Permutation P P' -> Permutation H H' -> Symmetric m irr P H -> Symmetric m irr P' H'.
Proof.
  assert (W : forall l l', Permutation l l' -> wlist sz_w l = wlist sz_w l') by (unfold wlist; induction 1; cbn [map fold_right]; lia).
  intros P1 P2 (A & B & C & D & E). split; [now apply (Permutation_Forall P1)|]. split; [now apply (Permutation_Forall P2)|]. split; [now rewrite <- (Permutation_length P1), <- (Permutation_length P2)|]. split; [now rewrite <- (W _ _ P1), <- (W _ _ P2)|].
  now rewrite <- (total_perm irr _ _ P1), <- (total_perm irr _ _ P2).
Qed.
Lemma canon_symmetric m irr t : Symmetric m irr (fcre t) (fann t) -> Symmetric m irr (fcre (canon2 t)) (fann (canon2 t)).
Proof.
  unfold canon2. destruct t as [[c P] H]. unfold fcre, fann, fcoef. cbn [fst snd]. intros S. destruct P as [|x [|y [|]]]; try exact S. destruct H as [|z [|w [|]]]; try exact S. cbn [fst snd]. revert S. apply two_symmetric; apply two_perm.
Qed.
Lemma kept_symmetric srt m irr o kept : legal_sort srt -> Forall short o -> Sym m irr o -> sq_simplify srt o = Ok kept -> Sym m irr kept.
Proof.
  intros HS Sh F E. destruct (kept_sorted srt o kept HS Sh E) as (_ & Inc). apply Forall_forall. intros t It. apply (in_map fkey) in It. apply Inc in It. rewrite map_map in It. apply in_map_iff in It. destruct It as (t0 & E0 & I0). rewrite Forall_forall in F. apply F, canon_symmetric in I0. unfold fkey in E0. apply pair_equal_spec in E0. destruct E0 as (<- & <-). exact I0.
Qed.
Lemma scaled_symmetric m irr o k : Sym m irr o -> Sym m irr (sq_mult_coeffs o k).
Proof. intros F. unfold sq_mult_coeffs. apply Forall_map. eapply Forall_impl; [|exact F]. intros t H. exact H. Qed.
Lemma sa_symmetric srt sp m nocc pool : legal_sort srt -> n_occ_alpha sp = Z.of_nat nocc -> n_vir_alpha sp = Z.of_nat (m - nocc) -> nocc <= m -> m <= length (orb_irreps sp) -> fill_pool_sa srt sp [] = Ok pool -> Forall (fun e => Sym m (orb_irreps sp) (snd e)) pool.
Proof.
  intros HS Ea Ev Ln Lm E. unfold fill_pool_sa in E. destruct (negb _); [discriminate|]. cbv zeta in E. rewrite Ea, Ev, !Nat2Z.id in E.
  match type of E with bind (foreach ?l ?b ?s) _ = _ => destruct (foreach l b s) as [p1|] eqn:E1; cbn [bind] in E; [|discriminate] end.
  set (Inv := fun p : sqpool => Forall (fun e => Sym m (orb_irreps sp) (snd e)) p).
  assert (I1 : Inv p1).
  { refine (foreach_inv Inv _ _ _ _ _ (Forall_nil _) E1). intros i s s' Ii Hs. apply in_seq in Ii. apply foreach_inv; [|exact Hs]. clear s s' Hs. intros a s s' Ia Hs Eb. apply in_seq in Ia.
    replace (2 * nocc + 2 * a) with (2 * (nocc + a)) in Eb by lia. rewrite (irreps_in _ m) in Eb by (repeat constructor; lia). cbn [bind] in Eb.
    destruct (N.eqb_spec (total_irrep (orb_irreps sp) [2 * i; 2 * (nocc + a)]) 0) as [Ez|_]; [|injection Eb as <-; exact Hs]. destruct (sq_simplify srt (sa_single i (nocc + a))) as [t|] eqn:Et; cbn [bind] in Eb; [|discriminate]. injection Eb as <-.
    apply Forall_app. split; [exact Hs|]. constructor; [|constructor]. cbn [snd]. destruct (single_hyp i (nocc + a)) as (Sh & _). refine (kept_symmetric _ _ _ _ _ HS Sh _ Et). apply single_symmetric; try lia; exact Ez. }
  assert (AN : forall o p, Sym m (orb_irreps sp) o -> Inv p -> Inv (add_nonempty (normalized o) p)).
  { intros o p Ho Hp. unfold add_nonempty. destruct (Nat.ltb _ _); [|exact Hp]. apply Forall_app. split; [exact Hp|]. constructor; [|constructor]. now apply scaled_symmetric. }
  refine (foreach_inv Inv _ _ _ _ _ I1 E). intros i s s' Ii Hs. apply in_seq in Ii. apply foreach_inv; [|exact Hs]. clear s s' Hs. intros j s s' Ij Hs. apply in_seq in Ij. apply foreach_inv; [|exact Hs]. clear s s' Hs. intros a s s' Ia Hs. apply in_seq in Ia. apply foreach_inv; [|exact Hs]. clear s s' Hs. intros b s s' Ib Hs Eb. apply in_seq in Ib.
  replace (2 * nocc + 2 * a) with (2 * (nocc + a)) in Eb by lia. replace (2 * nocc + 2 * b) with (2 * (nocc + b)) in Eb by lia. rewrite (irreps_in _ m) in Eb by (repeat constructor; lia). cbn [bind] in Eb.
  destruct (N.eqb_spec (total_irrep (orb_irreps sp) [2 * i; 2 * j; 2 * (nocc + a); 2 * (nocc + b)]) 0) as [Ez|_]; [|injection Eb as <-; exact Hs].
  destruct (sq_simplify srt (sa_double_a i j (nocc + a) (nocc + b))) as [ta|] eqn:Eta; cbn [bind] in Eb; [|discriminate]. destruct (sq_simplify srt (sa_double_b i j (nocc + a) (nocc + b))) as [tb|] eqn:Etb; cbn [bind] in Eb; [|discriminate]. injection Eb as <-.
  destruct (hyp_a i j (nocc + a) (nocc + b)) as (Sa & _), (hyp_b i j (nocc + a) (nocc + b)) as (Sb & _). destruct (doubles_symmetric m (orb_irreps sp) i j (nocc + a) (nocc + b)) as (Da & Db); try lia.
  apply AN; [|apply AN; [|exact Hs]]; [exact (kept_symmetric _ _ _ _ _ HS Sb Db Etb)|exact (kept_symmetric _ _ _ _ _ HS Sa Da Eta)].
Qed.
