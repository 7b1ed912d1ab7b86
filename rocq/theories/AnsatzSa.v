(** The operators of the "sa_SD" pool: the first half of the terms are de-excitations, the
    second half their negated transposes. *)
From Coq Require Import Reals String List Arith NArith ZArith Bool Lia Lra Permutation Sorted.
From Verif Require Import CBase Result Spec SQSpec SQModel SQPhase SQProofs SQPoolModel SQPoolOps GsdProofs SaModel SaProofs SaOps AnsatzSpec SparseNorm.
Import ListNotations.
Local Open Scope nat_scope.

(** minus the transposed term *)
Definition tr (t : fterm) : fterm := (((- fcoef t)%C, fann t), fcre t).
Definition before (a b : fterm) : Prop := pair_ltb (fkey a) (fkey b) = true.
Lemma kept_sorted srt o kept : legal_sort srt -> Forall short o -> sq_simplify srt o = Ok kept -> StronglySorted before kept /\ incl (map fkey kept) (map fkey (map canon2 o)).
Proof.
  intros HS Sh E. unfold sq_simplify in E. rewrite (canon_shorts srt o HS Sh) in E. cbn [bind] in E. cbv zeta in E.
  change (fold_left (fun m t => sq_accumulate (fcre t, fann t) (fcoef t) m) (map canon2 o) []) with (sq_map (map canon2 o) []) in E.
  destruct (sq_map_spec (map canon2 o) [] (SSorted_nil _)) as (Hs & _ & Ks). set (mm := sq_map (map canon2 o) []) in *. injection E as E. change (map tof (filter (fun kv => Rltb 1e-12 (Cabs (snd kv))) mm) = kept) in E.
  rewrite <- E. split.
  - clear - Hs. unfold smap_sorted in Hs. induction Hs as [|kv m Hs IH HF]; [constructor|]. cbn [filter]. destruct (Rltb _ _); [|exact IH]. cbn [map]. constructor; [exact IH|]. apply Forall_map. apply Forall_forall. intros kv' I. apply filter_In in I. rewrite Forall_forall in HF. unfold before. rewrite !fkey_tof. apply HF, I.
  - intros k I. rewrite map_map in I. apply in_map_iff in I. destruct I as (kv & <- & I). rewrite fkey_tof. apply filter_In in I. destruct (Ks kv (proj1 I)) as [[]|K]. exact K.
Qed.

(** ---- lists closed under [tr], with the low keys first ---- *)
Lemma low_split (low : fterm -> bool) o : StronglySorted before o -> (forall a b, In a o -> In b o -> low a = true -> low b = false -> before a b) ->
  o = filter low o ++ filter (fun t => negb (low t)) o.
Proof.
  intros Hs HL. induction Hs as [|t o Hs IH HF]; [reflexivity|]. cbn [filter]. specialize (IH (fun a b Ia Ib => HL a b (or_intror Ia) (or_intror Ib))). destruct (low t) eqn:El; cbn [negb app]; [now rewrite <- IH|].
  assert (Z : filter low o = []).
  { clear IH. destruct (filter low o) as [|u r] eqn:F; [reflexivity|]. exfalso. assert (Iu : In u (filter low o)) by (rewrite F; now left). apply filter_In in Iu. destruct Iu as (Iu & Lu). rewrite Forall_forall in HF. pose proof (HF u Iu) as B1. pose proof (HL u t (or_intror Iu) (or_introl eq_refl) Lu El) as B2. unfold before in *. rewrite (pair_ltb_asym _ _ B1) in B2. discriminate. }
  rewrite Z in *. cbn [app] in *. now rewrite <- IH.
Qed.
Lemma sorted_nodup o : StronglySorted before o -> NoDup o.
Proof.
  induction 1 as [|t o Hs IH HF]; constructor; [|exact IH]. intros I. rewrite Forall_forall in HF. specialize (HF t I). unfold before in HF. rewrite pair_ltb_irrefl in HF. discriminate.
Qed.
Lemma tr_tr t : tr (tr t) = t.
Proof. unfold tr, fcoef, fcre, fann. destruct t as [[c P] H]. cbn [fst snd]. do 2 f_equal. ring. Qed.
Lemma halves (low : fterm -> bool) o : StronglySorted before o -> (forall a b, In a o -> In b o -> low a = true -> low b = false -> before a b) ->
  (forall t, In t o -> In (tr t) o /\ low (tr t) = negb (low t)) ->
  firstn (length o / 2) o = filter low o /\ Permutation o (flat_map (fun t => [t; tr t]) (filter low o)).
Proof.
  intros Hs HL HT. set (L := filter low o). set (H := filter (fun t => negb (low t)) o). pose proof (low_split low o Hs HL) as E. fold L H in E. pose proof (sorted_nodup o Hs) as Nd.
  assert (PH : Permutation H (map tr L)).
  { apply NoDup_Permutation.
    - apply NoDup_filter, Nd.
    - apply FinFun.Injective_map_NoDup; [|apply NoDup_filter, Nd]. intros a b Eab. rewrite <- (tr_tr a), <- (tr_tr b). now rewrite Eab.
    - intros t. unfold H, L. rewrite filter_In, in_map_iff. split.
      + intros (I & Lt). exists (tr t). split; [apply tr_tr|]. apply filter_In. destruct (HT t I) as (I' & E'). split; [exact I'|]. rewrite E'. exact Lt.
      + intros (u & <- & Iu). apply filter_In in Iu. destruct Iu as (Iu & Lu). destruct (HT u Iu) as (I' & E'). split; [exact I'|]. rewrite E', Lu. reflexivity. }
  assert (LL : length o = length L * 2). { rewrite E at 1. rewrite app_length, (Permutation_length PH), map_length. lia. }
  split.
  - rewrite LL, Nat.div_mul by discriminate. rewrite E at 1. rewrite firstn_app, Nat.sub_diag. cbn [firstn]. rewrite app_nil_r. apply firstn_all.
  - rewrite E at 1. rewrite PH. clear. induction L as [|t L IH]; [constructor|]. cbn [map flat_map app]. constructor. rewrite <- Permutation_middle. constructor. exact IH.
Qed.

(** ---- antisymmetry of the sums of coefficients ---- *)
Definition T (c : R) (p q r s : nat) (k : list nat * list nat) : C :=
  if negb (Nat.eqb p q) && negb (Nat.eqb r s) && keq (two p q, two r s) k then (RtoC c * sgn (Nat.ltb p q) * sgn (Nat.ltb r s))%C else C0.
Lemma sumk_T k c p q r s o : sumk k (map canon2 (add_pair c p q r s o)) = (sumk k (map canon2 o) + T c p q r s k)%C.
Proof. apply sumk_pair. Qed.
Lemma keq_swap a b c d : keq (a, b) (c, d) = keq (b, a) (d, c).
Proof. destruct (keq_spec (a, b) (c, d)) as [E|N], (keq_spec (b, a) (d, c)) as [E'|N']; try reflexivity; exfalso; congruence. Qed.
Lemma sgn_swap p q : p <> q -> sgn (Nat.ltb p q) = (- sgn (Nat.ltb q p))%C.
Proof. intros N. destruct (Nat.ltb_spec p q), (Nat.ltb_spec q p); try lia; unfold sgn; ring. Qed.
Lemma T_anti c p q r s K L : T (- c) p q r s (K, L) = (- T c s r q p (L, K))%C.
Proof.
  unfold T. rewrite (Nat.eqb_sym s r), (Nat.eqb_sym q p), (two_comm s r), (two_comm q p), (keq_swap (two r s)). destruct (Nat.eqb_spec p q) as [->|N1], (Nat.eqb_spec r s) as [->|N2]; cbn [negb andb]; try ring.
  destruct (keq _ _); [|ring]. rewrite (sgn_swap p q N1), (sgn_swap r s N2), RtoC_neg. ring.
Qed.
Lemma T_anti' c p q r s K L : T c p q r s (K, L) = (- T (- c) s r q p (L, K))%C.
Proof. rewrite <- (Ropp_involutive c) at 1. apply T_anti. Qed.
Definition anti (o : list fterm) : Prop := forall K L, sumk (K, L) (map canon2 o) = (- sumk (L, K) (map canon2 o))%C.
Lemma anti_a i j a b : anti (sa_double_a i j a b).
Proof.
  intros K L. unfold sa_double_a. cbv zeta. set (u := (1 / sqrt 12)%R). rewrite !sumk_T, !sumk_nil.
  rewrite !(T_anti _ _ _ _ _ K L). rewrite (T_anti' (2 * u) (2 * a) (2 * b) (2 * i) (2 * j) K L), (T_anti' (2 * u) (2 * a + 1) (2 * b + 1) (2 * i + 1) (2 * j + 1) K L), !(T_anti' u _ _ _ _ K L). ring.
Qed.
Lemma anti_b i j a b : anti (sa_double_b i j a b).
Proof.
  intros K L. unfold sa_double_b. cbv zeta. set (u := (1 / 2)%R). rewrite !sumk_T, !sumk_nil.
  rewrite !(T_anti _ _ _ _ _ K L). rewrite !(T_anti' u _ _ _ _ K L). ring.
Qed.
Lemma anti_single i a : anti (sa_single i a).
Proof.
  intros K L. unfold sa_single. cbv zeta. unfold sq_add_term. cbn [app map]. unfold canon2, fcre, fann, fcoef. cbn [fst snd]. unfold sumk. rewrite !Csum_cons, !Csum_nil. unfold fkey, fcre, fann, fcoef. cbn [fst snd]. rewrite !RtoC_neg.
  rewrite (keq_swap [2 * a] [2 * i] K L), (keq_swap [2 * a + 1] [2 * i + 1] K L), (keq_swap [2 * i] [2 * a] K L), (keq_swap [2 * i + 1] [2 * a + 1] K L). repeat (destruct (keq _ _)); ring.
Qed.

(** ---- occupied and virtual orbitals ---- *)
Definition Split (n : nat) (t : fterm) : Prop :=
  (Forall (fun p => p < n) (fcre t) /\ Forall (fun p => n <= p) (fann t)) \/ (Forall (fun p => n <= p) (fcre t) /\ Forall (fun p => p < n) (fann t)).
Lemma split_pair n c p q r s o : (p < n /\ q < n /\ n <= r /\ n <= s) \/ (n <= p /\ n <= q /\ r < n /\ s < n) -> Forall (Split n) o -> Forall (Split n) (add_pair c p q r s o).
Proof.
  intros D F. unfold add_pair. destruct (_ && _); [|exact F]. unfold sq_add_term. apply Forall_app. split; [exact F|]. constructor; [|constructor]. unfold Split, fcre, fann. cbn [fst snd].
  destruct D as [(D1 & D2 & D3 & D4)|(D1 & D2 & D3 & D4)]; [left|right]; split; repeat constructor; assumption.
Qed.
Lemma split_a i j a b nocc : i < nocc -> j < nocc -> nocc <= a -> nocc <= b -> Forall (Split (2 * nocc)) (sa_double_a i j a b).
Proof. intros. unfold sa_double_a. cbv zeta. repeat (apply split_pair; [lia|]). constructor. Qed.
Lemma split_b i j a b nocc : i < nocc -> j < nocc -> nocc <= a -> nocc <= b -> Forall (Split (2 * nocc)) (sa_double_b i j a b).
Proof. intros. unfold sa_double_b. cbv zeta. repeat (apply split_pair; [lia|]). constructor. Qed.
Lemma split_single i a nocc : i < nocc -> nocc <= a -> Forall (Split (2 * nocc)) (sa_single i a).
Proof.
  intros L1 L2. unfold sa_single, sq_add_term. cbv zeta. cbn [app]. apply Forall_cons; [right|apply Forall_cons; [right|apply Forall_cons; [left|apply Forall_cons; [left|apply Forall_nil]]]]; unfold fcre, fann; cbn [fst snd]; split; (apply Forall_cons; [lia|apply Forall_nil]).
Qed.
Lemma split_canon n t : Split n t -> Split n (canon2 t).
Proof.
  unfold Split, canon2. destruct t as [[c P] H]. unfold fcre, fann, fcoef. cbn [fst snd]. intros S. destruct P as [|x [|y [|]]]; try exact S. destruct H as [|z [|w [|]]]; try exact S. cbn [fst snd].
  destruct S as [(S1 & S2)|(S1 & S2)]; [left|right]; (split; [eapply Permutation_Forall; [apply two_perm|exact S1]|eapply Permutation_Forall; [apply two_perm|exact S2]]).
Qed.
Lemma canon_shape t : short t -> dsorted (fcre (canon2 t)) /\ dsorted (fann (canon2 t)) /\ length (fcre (canon2 t)) = length (fann (canon2 t)) /\ 1 <= length (fcre (canon2 t)) <= 2.
Proof.
  destruct t as [[c P] H]. unfold short, canon2, fcre, fann, fcoef. cbn [fst snd]. intros [(x & z & -> & ->)|(x & y & z & w & -> & -> & N1 & N2)]; cbn [fst snd].
  - repeat split; try (constructor; constructor); cbn; lia.
  - rewrite !two_length. split; [now apply two_sorted|]. split; [now apply two_sorted|]. lia.
Qed.
(** ---- the operators of the pool ---- *)
Record SaOp (n : nat) (b : R) (o : list fterm) : Prop := {
  so_sorted : StronglySorted before o;
  so_real : forall t, In t o -> Im (fcoef t) = 0%R /\ (b <= Cabs (fcoef t))%R;
  so_shape : forall t, In t o -> dsorted (fcre t) /\ dsorted (fann t) /\ length (fcre t) = length (fann t) /\ 1 <= length (fcre t) <= 2;
  so_split : forall t, In t o -> Split n t;
  so_tr : forall t, In t o -> In (tr t) o }.
Lemma quantum_large u c : (0 < u)%R -> Quantum u c -> c <> C0 -> Im c = 0%R /\ (u <= Cabs c)%R.
Proof.
  intros Hu (n & ->) N. split; [reflexivity|]. rewrite Cabs_RtoC, Rabs_mult, (Rabs_right u) by lra. assert (Nn : n <> 0%Z) by (intros ->; apply N; apply C_ext; cbn; ring).
  rewrite <- abs_IZR. assert (1 <= IZR (Z.abs n))%R by (apply IZR_le; lia). nra.
Qed.
Lemma kept_op srt n u o kept : legal_sort srt -> Forall short o -> (1e-12 < u)%R -> Forall (fun t => Quantum u (fcoef t)) o -> anti o -> Forall (Split n) o -> sq_simplify srt o = Ok kept ->
  SaOp n u kept /\ NoDup (map fkey kept) /\ incl (map fkey kept) (map fkey (map canon2 o)) /\ forall t, In t kept -> fcoef t = sumk (fkey t) (map canon2 o).
Proof.
  intros HS Sh Hu Q A Sp E. destruct (kept_sorted srt o kept HS Sh E) as (So & Inc). destruct (simplify_quantum srt u o HS Sh Hu Q) as (kept' & E' & _ & Co & Nd & All). assert (kept' = kept) by congruence. subst kept'.
  assert (Or : forall t, In t kept -> exists t0, In t0 o /\ fkey t = fkey (canon2 t0)).
  { intros t I. apply (in_map fkey) in I. apply Inc in I. rewrite map_map in I. apply in_map_iff in I. destruct I as (t0 & E0 & I0). exists t0. auto. }
  split; [|split; [exact Nd|]; split; [exact Inc|]; intros t I; symmetry; apply Co, I]. constructor.
  - exact So.
  - intros t I. destruct (Co t I) as (N0 & Ev). apply (quantum_large u); [lra| |exact N0]. rewrite <- Ev. apply quantum_sum. intros x Ix. apply in_map_iff in Ix. destruct Ix as (t0 & <- & I0). rewrite Forall_forall in Q. destruct (keq _ _); [apply canon_quantum, Q, I0|apply quantum_zero].
  - intros t I. destruct (Or t I) as (t0 & I0 & Ek). unfold fkey in Ek. apply pair_equal_spec in Ek. destruct Ek as (-> & ->). rewrite Forall_forall in Sh. apply canon_shape, Sh, I0.
  - intros t I. destruct (Or t I) as (t0 & I0 & Ek). unfold fkey in Ek. apply pair_equal_spec in Ek. destruct Ek as (E1 & E2). unfold Split. rewrite E1, E2. rewrite Forall_forall in Sp. apply split_canon, Sp, I0.
  - intros t I. destruct (Co t I) as (N0 & Ev). assert (Ev' : sumk (fann t, fcre t) (map canon2 o) = (- fcoef t)%C) by (rewrite A, <- Ev; reflexivity).
    assert (I' : In (fann t, fcre t) (map fkey kept)). { apply All. rewrite Ev'. intros K. apply N0. transitivity (- - fcoef t)%C; [ring|]. rewrite K. ring. }
    apply in_map_iff in I'. destruct I' as (t' & Ek & I'). replace (tr t) with t'; [exact I'|]. destruct (Co t' I') as (_ & Ev2). rewrite Ek, Ev' in Ev2. unfold tr, fkey in *. destruct t' as [[c' P'] H']. unfold fcre, fann, fcoef in *. cbn [fst snd] in *. congruence.
Qed.
(** scaling *)
Lemma scale_op n b k o : (0 < k)%R -> SaOp n b o -> SaOp n (k * b) (sq_mult_coeffs o (RtoC k)).
Proof.
  intros Hk S. unfold sq_mult_coeffs. set (f := fun t : fterm => (((fcoef t * RtoC k)%C, fcre t), fann t)). constructor.
  - pose proof (so_sorted _ _ _ S) as So. clear - So. induction So as [|t o So IH HF]; [constructor|]. cbn [map]. constructor; [exact IH|]. apply Forall_map. exact HF.
  - intros t I. apply in_map_iff in I. destruct I as (t0 & <- & I). destruct (so_real _ _ _ S t0 I) as (R1 & R2). unfold f. change (fcoef (((fcoef t0 * RtoC k)%C, fcre t0), fann t0)) with (fcoef t0 * RtoC k)%C. split; [cbn [Im Cmul RtoC]; rewrite R1; ring|]. rewrite Cabs_mul, Cabs_RtoC, (Rabs_right k) by lra. nra.
  - intros t I. apply in_map_iff in I. destruct I as (t0 & <- & I). exact (so_shape _ _ _ S t0 I).
  - intros t I. apply in_map_iff in I. destruct I as (t0 & <- & I). exact (so_split _ _ _ S t0 I).
  - intros t I. apply in_map_iff in I. destruct I as (t0 & <- & I). apply in_map_iff. exists (tr t0). split; [|exact (so_tr _ _ _ S t0 I)]. unfold f, tr, fcoef, fcre, fann. cbn [fst snd]. do 2 f_equal. ring.
Qed.
Lemma weaken_op n b b' o : (b' <= b)%R -> SaOp n b o -> SaOp n b' o.
Proof. intros L S. constructor; try apply S. intros t I. destruct (so_real _ _ _ S t I). split; [assumption|lra]. Qed.
Lemma sumk_bound B k o : (forall t, In t o -> Cabs (fcoef t) <= B)%R -> (0 <= B)%R -> (Cabs (sumk k o) <= INR (length o) * B)%R.
Proof.
  intros H HB. unfold sumk. induction o as [|t o IH]; [rewrite Csum_nil, Cabs_C0; cbn; lra|]. rewrite Csum_cons. cbn [length]. rewrite S_INR. eapply Rle_trans; [apply Cabs_triangle|].
  assert (H1 : (Cabs (if keq (fkey t) k then fcoef t else C0) <= B)%R) by (destruct (keq _ _); [apply H; now left|rewrite Cabs_C0; exact HB]). specialize (IH (fun t I => H t (or_intror I))). lra.
Qed.
Lemma canon_abs t : Cabs (fcoef (canon2 t)) = Cabs (fcoef t).
Proof.
  unfold canon2. destruct (fcre t) as [|x [|y [|]]]; auto. destruct (fann t) as [|z [|w [|]]]; auto. unfold fcoef at 1. cbn [fst]. rewrite !Cabs_mul. assert (S : forall b, Cabs (sgn b) = 1%R) by (intros []; unfold sgn; [rewrite Cabs_neg|]; apply Cabs_C1). rewrite !S. ring.
Qed.
Lemma weight_le B o : (forall t, In t o -> Cabs (fcoef t) <= B)%R -> (weight o <= INR (length o) * (B * B))%R.
Proof.
  intros H. induction o as [|t o IH]; [cbn; lra|]. cbn [weight fold_right length]. fold (weight o). rewrite S_INR. specialize (IH (fun t I => H t (or_intror I))). pose proof (H t (or_introl eq_refl)). pose proof (Cabs_nonneg (fcoef t)). nra.
Qed.
Lemma double_op srt n u o kept : legal_sort srt -> Forall short o -> (1e-12 < u)%R -> Forall (fun t => Quantum u (fcoef t)) o -> anti o -> Forall (Split n) o -> length o <= 12 -> Forall (fun t => Cabs (fcoef t) <= 2 * u)%R o ->
  sq_simplify srt o = Ok kept -> normalized kept <> [] -> SaOp n (1 / 60) (normalized kept).
Proof.
  intros HS Sh Hu Q A Sp L B E Ne. destruct (kept_op srt n u o kept HS Sh Hu Q A Sp E) as (S & Nd & Inc & Co).
  assert (Nk : kept <> []) by (intros ->; apply Ne; reflexivity).
  destruct (normalized_spec kept Nk) as (k & Hk & En & Hw). { intros t I K. destruct (so_real _ _ _ S t I) as (_ & R2). rewrite K, Cabs_C0 in R2. lra. }
  rewrite En in *. rewrite weight_scale in Hw. apply (weaken_op n (k * u)); [|now apply scale_op].
  assert (Lk : length kept <= 12). { pose proof (NoDup_incl_length Nd Inc) as LI. rewrite !map_length in LI. lia. }
  assert (Bk : forall t, In t kept -> (Cabs (fcoef t) <= 24 * u)%R).
  { intros t I. rewrite (Co t I). eapply Rle_trans; [apply (sumk_bound (2 * u)); [|lra]|].
    - intros x Ix. apply in_map_iff in Ix. destruct Ix as (t0 & <- & I0). rewrite canon_abs. rewrite Forall_forall in B. now apply B.
    - rewrite map_length. apply le_INR in L. replace (INR 12) with 12%R in L by (cbn; ring). nra. }
  pose proof (weight_le _ kept Bk) as W. apply le_INR in Lk. replace (INR 12) with 12%R in Lk by (cbn; ring).
  assert (W2 : (weight kept <= 6912 * (u * u))%R) by nra. assert (K2 : (2 <= 6912 * ((k * u) * (k * u)))%R) by (rewrite <- Hw; nra).
  destruct (Rle_lt_dec (1 / 60) (k * u)) as [G|G]; [exact G|]. exfalso. assert (0 < k * u)%R by nra. nra.
Qed.
Definition low (n : nat) (t : fterm) : bool := forallb (fun p => Nat.ltb p n) (fcre t).
Lemma low_spec n t : Split n t -> fcre t <> [] -> (low n t = true /\ Forall (fun p => p < n) (fcre t) /\ Forall (fun p => n <= p) (fann t)) \/ (low n t = false /\ Forall (fun p => n <= p) (fcre t) /\ Forall (fun p => p < n) (fann t)).
Proof.
  intros [(S1 & S2)|(S1 & S2)] N; unfold low; [left|right]; (split; [|auto]).
  - apply forallb_forall. intros p I. rewrite Forall_forall in S1. apply Nat.ltb_lt, S1, I.
  - destruct (fcre t) as [|p r]; [contradiction|]. inversion S1; subst. cbn [forallb]. destruct (Nat.ltb_spec p n); [lia|reflexivity].
Qed.
Lemma shape_ne (t : fterm) : 1 <= length (fcre t) <= 2 -> fcre t <> [].
Proof. intros L E. rewrite E in L. cbn in L. lia. Qed.
Lemma sa_halves n b o : SaOp n b o -> firstn (length o / 2) o = filter (low n) o /\ Permutation o (flat_map (fun t => [t; tr t]) (filter (low n) o)).
Proof.
  intros S. apply halves; [apply S| |].
  - intros x y Ix Iy Lx Ly. destruct (so_shape _ _ _ S x Ix) as (_ & _ & _ & L1). destruct (so_shape _ _ _ S y Iy) as (_ & _ & _ & L2).
    destruct (low_spec n x (so_split _ _ _ S x Ix) (shape_ne x L1)) as [(_ & F1 & _)|(K & _)]; [|congruence]. destruct (low_spec n y (so_split _ _ _ S y Iy) (shape_ne y L2)) as [(K & _)|(_ & F2 & _)]; [congruence|].
    unfold before, pair_ltb, fkey. cbn [fst snd]. destruct (fcre x) as [|p r]; [cbn in L1; lia|]. destruct (fcre y) as [|q s]; [cbn in L2; lia|]. inversion F1; inversion F2; subst. cbn [vec_ltb]. destruct (Nat.ltb_spec p q); [reflexivity|lia].
  - intros t I. split; [exact (so_tr _ _ _ S t I)|]. destruct (so_shape _ _ _ S t I) as (_ & _ & LL & L1). assert (N2 : fann t <> []) by (intros E; rewrite E in LL; cbn in LL; lia).
    pose proof (low_spec n t (so_split _ _ _ S t I) (shape_ne t L1)) as D1. pose proof (low_spec n (tr t) (so_split _ _ _ S _ (so_tr _ _ _ S t I)) N2) as D2. change (fcre (tr t)) with (fann t) in D2. change (fann (tr t)) with (fcre t) in D2.
    assert (X : forall l, l <> [] -> Forall (fun p => p < n) l -> Forall (fun p => n <= p) l -> False) by (intros [|p l] N F1 F2; [contradiction|]; inversion F1; inversion F2; subst; lia).
    destruct D1 as [(-> & A1 & A2)|(-> & A1 & A2)], D2 as [(-> & B1 & B2)|(-> & B1 & B2)]; try reflexivity; exfalso; eapply X; eauto.
Qed.
(** the excitations an operator of the pool is made of *)
Definition part := (R * list nat * list nat)%type.
Definition part_op (x : part) : list fterm := Antihermitian (fst (fst x)) (snd (fst x)) (snd x).
Definition part_term (x : part) : fterm := ((RtoC (fst (fst x)), snd (fst x)), snd x).
Lemma sa_parts n b o : SaOp n b o -> exists parts, firstn (length o / 2) o = map part_term parts /\ Permutation o (flat_map part_op parts) /\
  Forall (fun x => Excitable (snd (fst x)) (snd x) /\ (forall k, In k (snd (fst x)) -> ~ In k (snd x)) /\ length (snd (fst x)) <= 2 /\ (b <= Rabs (fst (fst x)))%R) parts.
Proof.
  intros S. destruct (sa_halves n b o S) as (E & P). exists (map (fun t => (Re (fcoef t), fcre t, fann t)) (filter (low n) o)).
  assert (R : forall t, In t (filter (low n) o) -> t = ((RtoC (Re (fcoef t)), fcre t), fann t)).
  { intros t I. apply filter_In in I. destruct (so_real _ _ _ S t (proj1 I)) as (R1 & _). destruct t as [[c p] h]. unfold fcoef, fcre, fann in *. cbn [fst snd] in *. do 2 f_equal. apply C_ext; cbn; [reflexivity|exact R1]. }
  split; [|split].
  - rewrite E, map_map. rewrite <- (map_id (filter (low n) o)) at 1. apply map_ext_in. exact R.
  - rewrite P at 1. clear P. apply Permutation_refl'. clear E. induction (filter (low n) o) as [|t r IH]; [reflexivity|]. cbn [map flat_map]. rewrite IH by (intros; apply R; now right). f_equal. pose proof (R t (or_introl eq_refl)) as Et. unfold part_op, Antihermitian. cbn [fst snd]. rewrite <- Et. unfold tr. f_equal. f_equal. do 2 f_equal. rewrite Et at 1. unfold fcoef. cbn [fst]. apply C_ext; cbn; ring.
  - apply Forall_map. apply Forall_forall. intros t I. cbn [fst snd]. pose proof (proj1 (filter_In _ _ _) I) as (I0 & _). destruct (so_shape _ _ _ S t I0) as (D1 & D2 & LL & L1). destruct (so_real _ _ _ S t I0) as (R1 & R2).
    assert (Dj : forall k, In k (fcre t) -> ~ In k (fann t)). { intros k K1 K2. destruct (so_split _ _ _ S t I0) as [(F1 & F2)|(F1 & F2)]; rewrite Forall_forall in F1, F2; specialize (F1 k K1); specialize (F2 k K2); cbn beta in *; lia. }
    split; [split; [now apply shape_ne|]; split; [exact LL|]; split; [exact D1|]; split; [exact D2|]; now left|]. split; [exact Dj|]. split; [lia|].
    rewrite (R t I) in R2. unfold fcoef in R2. cbn [fst] in R2. rewrite Cabs_RtoC in R2. exact R2.
Qed.

(** ---- every entry of the pool ---- *)
Lemma foreach_inv {A S} (Inv : S -> Prop) (l : list A) (body : A -> S -> res S) : (forall x s s', In x l -> Inv s -> body x s = Ok s' -> Inv s') -> forall s s', Inv s -> foreach l body s = Ok s' -> Inv s'.
Proof.
  induction l as [|x l IH]; intros H s s' Hi E; cbn [foreach] in E; [injection E as <-; exact Hi|]. destruct (body x s) as [s1|] eqn:E1; cbn [bind] in E; [|discriminate]. apply (IH (fun y a b I => H y a b (or_intror I)) s1 s'); [apply (H x s s1 (or_introl eq_refl) Hi E1)|exact E].
Qed.
Lemma abs_pair B c p q r s o : (Rabs c <= B)%R -> Forall (fun t => Cabs (fcoef t) <= B)%R o -> Forall (fun t => Cabs (fcoef t) <= B)%R (add_pair c p q r s o).
Proof. intros H F. unfold add_pair. destruct (_ && _); [|exact F]. unfold sq_add_term. apply Forall_app. split; [exact F|]. constructor; [|constructor]. unfold fcoef. cbn [fst]. now rewrite Cabs_RtoC. Qed.
Lemma len_pair c p q r s o : length (add_pair c p q r s o) <= S (length o).
Proof. unfold add_pair. destruct (_ && _); [|lia]. unfold sq_add_term. rewrite app_length. cbn. lia. Qed.
Lemma sizes_a i j a b : length (sa_double_a i j a b) <= 12 /\ Forall (fun t => Cabs (fcoef t) <= 2 * (1 / sqrt 12))%R (sa_double_a i j a b).
Proof.
  pose proof u12 as U. unfold sa_double_a. cbv zeta. set (u := (1 / sqrt 12)%R) in *. split; [repeat (eapply Nat.le_trans; [apply len_pair|]; apply le_n_S); cbn; lia|].
  repeat (apply abs_pair; [rewrite ?Rabs_Ropp; rewrite Rabs_right; lra|]). constructor.
Qed.
Lemma sizes_b i j a b : length (sa_double_b i j a b) <= 12 /\ Forall (fun t => Cabs (fcoef t) <= 2 * (1 / 2))%R (sa_double_b i j a b).
Proof.
  unfold sa_double_b. cbv zeta. set (u := (1 / 2)%R) in *. assert (0 < u)%R by (unfold u; lra). split; [repeat (eapply Nat.le_trans; [apply len_pair|]; apply le_n_S); cbn; lia|].
  repeat (apply abs_pair; [rewrite ?Rabs_Ropp; rewrite Rabs_right; lra|]). constructor.
Qed.
Lemma single_hyp i a : Forall short (sa_single i a) /\ Forall (fun t => Quantum (1 / sqrt 2) (fcoef t)) (sa_single i a).
Proof.
  split; [unfold sa_single; cbv zeta; unfold sq_add_term; cbn [app]; repeat (constructor; [left; eexists; eexists; split; reflexivity|]); constructor|].
  unfold sa_single. cbv zeta. unfold sq_add_term. cbn [app]. constructor; [apply q1|]. constructor; [apply q1|]. constructor; [apply qm1|]. constructor; [apply qm1|]. constructor.
Qed.
Lemma sa_pool_ops srt sp nocc pool : legal_sort srt -> n_occ_alpha sp = Z.of_nat nocc -> fill_pool_sa srt sp [] = Ok pool -> Forall (fun e => SaOp (2 * nocc) (1 / 60) (snd e)) pool.
Proof.
  intros HS Ea E. unfold fill_pool_sa in E. destruct (negb _); [discriminate|]. cbv zeta in E. rewrite Ea, Nat2Z.id in E.
  match type of E with bind (foreach ?l ?b ?s) _ = _ => destruct (foreach l b s) as [p1|] eqn:E1; cbn [bind] in E; [|discriminate] end.
  set (Inv := fun p : sqpool => Forall (fun e => SaOp (2 * nocc) (1 / 60) (snd e)) p).
  assert (I1 : Inv p1).
  { refine (foreach_inv Inv _ _ _ _ _ (Forall_nil _) E1). intros i s s' Ii Hs. apply in_seq in Ii. apply foreach_inv; [|exact Hs]. clear s s' Hs. intros a s s' Ia Hs Eb.
    destruct (find_irrep _ _) as [ir|]; cbn [bind] in Eb; [|discriminate]. destruct (N.eqb ir 0); [|injection Eb as <-; exact Hs]. destruct (sq_simplify srt (sa_single i (nocc + a))) as [t|] eqn:Et; cbn [bind] in Eb; [|discriminate]. injection Eb as <-.
    apply Forall_app. split; [exact Hs|]. constructor; [|constructor]. cbn [snd]. destruct (single_hyp i (nocc + a)) as (Sh & Q). apply (weaken_op _ (1 / sqrt 2)).
    - assert (S2 : (0 < sqrt 2)%R) by (apply sqrt_lt_R0; lra). assert (L : (sqrt 2 <= 2)%R). { replace 2%R with (sqrt (2 * 2)) at 2 by (apply sqrt_square; lra). apply sqrt_le_1_alt. lra. }
      apply (Rmult_le_reg_r (sqrt 2)); [exact S2|]. replace (1 / sqrt 2 * sqrt 2)%R with 1%R by (field; lra). lra.
    - apply (kept_op srt (2 * nocc) (1 / sqrt 2) (sa_single i (nocc + a)) t HS Sh u2 Q (anti_single _ _)); [apply split_single; lia|exact Et]. }
  assert (AN : forall o p, (normalized o <> [] -> SaOp (2 * nocc) (1 / 60) (normalized o)) -> Inv p -> Inv (add_nonempty (normalized o) p)).
  { intros o p Ho Hp. unfold add_nonempty. destruct (Nat.ltb_spec 0 (length (normalized o))) as [L|L]; [|exact Hp]. apply Forall_app. split; [exact Hp|]. constructor; [|constructor]. apply Ho. intros K. rewrite K in L. cbn in L. lia. }
  refine (foreach_inv Inv _ _ _ _ _ I1 E). intros i s s' Ii Hs. apply in_seq in Ii. apply foreach_inv; [|exact Hs]. clear s s' Hs. intros j s s' Ij Hs. apply in_seq in Ij. apply foreach_inv; [|exact Hs]. clear s s' Hs. intros a s s' Ia Hs. apply foreach_inv; [|exact Hs]. clear s s' Hs. intros b s s' Ib Hs Eb.
  destruct (find_irrep _ _) as [ir|]; cbn [bind] in Eb; [|discriminate]. destruct (N.eqb ir 0); [|injection Eb as <-; exact Hs].
  destruct (sq_simplify srt (sa_double_a i j (nocc + a) (nocc + b))) as [ta|] eqn:Eta; cbn [bind] in Eb; [|discriminate]. destruct (sq_simplify srt (sa_double_b i j (nocc + a) (nocc + b))) as [tb|] eqn:Etb; cbn [bind] in Eb; [|discriminate]. injection Eb as <-.
  destruct (hyp_a i j (nocc + a) (nocc + b)) as (Sa & Qa), (hyp_b i j (nocc + a) (nocc + b)) as (Sb & Qb), (sizes_a i j (nocc + a) (nocc + b)) as (La & Ba), (sizes_b i j (nocc + a) (nocc + b)) as (Lb & Bb).
  apply AN; [|apply AN; [|exact Hs]].
  - apply (double_op srt (2 * nocc) (1 / 2) (sa_double_b i j (nocc + a) (nocc + b))); try assumption; [lra|apply anti_b|apply split_b; lia].
  - apply (double_op srt (2 * nocc) (1 / sqrt 12) (sa_double_a i j (nocc + a) (nocc + b))); try assumption; [apply u12|apply anti_a|apply split_a; lia].
Qed.
