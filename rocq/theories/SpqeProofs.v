(** The SPQE pool: contents of build_pool. *)
From Coq Require Import Reals String List Arith NArith ZArith Bool Lia Lra Permutation Sorted.
From Verif Require Import CBase Result Bits Spec SQSpec GateModel LibProofs OperatorModel SQModel SQPhase SQProofs SQPoolSpec SQPoolModel SQPoolProofs SQPoolOps SelectModel SelectSpec SelectProofs.
Import ListNotations.

Lemma occ_above x n p : (x < 2 ^ N.of_nat n)%N -> n <= p -> occ x p = false.
Proof.
  intros H Hp. unfold occ. destruct (N.eq_dec x 0) as [->|n0]; [apply N.bits_0|]. apply N.bits_above_log2. apply N.log2_lt_pow2; [lia|]. eapply N.lt_le_trans; [exact H|]. apply N.pow_le_mono_r; lia.
Qed.
Lemma orbitals_extend f k j : (forall p, k <= p -> f p = false) -> orbitals f (j + k) = orbitals f k.
Proof. intros H. induction j as [|j IH]; [reflexivity|]. cbn [Nat.add orbitals]. rewrite H by lia. exact IH. Qed.
Lemma orbitals_size f n k : (forall p, k <= p -> f p = false) -> (forall p, n <= p -> f p = false) -> orbitals f k = orbitals f n.
Proof.
  intros Hk Hn. destruct (Nat.le_ge_cases k n) as [L|L].
  - replace n with ((n - k) + k) by lia. symmetry. apply orbitals_extend, Hk.
  - replace k with ((k - n) + n) by lia. apply orbitals_extend, Hn.
Qed.
Lemma size_nat_spec x : N.of_nat (N.size_nat x) = N.size x.
Proof. destruct x as [|p]; [reflexivity|]. cbn [N.size_nat N.size]. induction p as [p IH|p IH|]; cbn [Pos.size_nat Pos.size]; [rewrite Nat2N.inj_succ, IH; reflexivity|rewrite Nat2N.inj_succ, IH; reflexivity|reflexivity]. Qed.
Lemma py_bin_spec x : exists k, py_bin x = bitsr k x /\ (x < 2 ^ N.of_nat k)%N /\ (k <= 1 \/ (2 ^ N.of_nat (k - 1) <= x)%N).
Proof.
  destruct x as [|p]; [exists 1; split; [reflexivity|split; [reflexivity|left; lia]]|]. exists (N.size_nat (N.pos p)). set (x := N.pos p). set (k := N.size_nat x). split; [|split].
  - change (py_bin x) with (map (fun i => N.testbit x (N.of_nat (k - 1 - i))) (seq 0 k)). apply (list_ext false); [rewrite map_length, seq_length, bitsr_length; reflexivity|]. intros i Hi. rewrite map_length, seq_length in Hi. rewrite bitsr_nth by exact Hi.
    rewrite (nth_indep _ false ((fun i => N.testbit x (N.of_nat (k - 1 - i))) 0)) by (rewrite map_length, seq_length; exact Hi).
    rewrite (map_nth (fun i => N.testbit x (N.of_nat (k - 1 - i)))). rewrite seq_nth by exact Hi. reflexivity.
  - unfold k. rewrite size_nat_spec. apply N.size_gt.
  - right. pose proof (size_nat_spec x : N.of_nat k = N.size x) as E.
    rewrite Nat2N.inj_sub, E. rewrite N.size_log2 by discriminate. replace (N.succ (N.log2 x) - N.of_nat 1)%N with (N.log2 x) by lia. apply N.log2_spec. reflexivity.
Qed.
Lemma map_filter_S {B} (g : nat -> bool) (f : nat -> B) l : map f (filter g (map S l)) = map (fun i => f (S i)) (filter (fun i => g (S i)) l).
Proof. induction l as [|i l IH]; [reflexivity|]. cbn [map filter]. destruct (g (S i)); cbn [map]; rewrite IH; reflexivity. Qed.
Lemma ones_bitsr k x : ones_from_right (bitsr k x) = orbitals (occ x) k.
Proof.
  unfold ones_from_right. rewrite bitsr_length. induction k as [|k IH]; [reflexivity|].
  assert (E : map (fun i => S k - i - 1) (filter (fun i => nth i (bitsr (S k) x) false) (map S (seq 0 k))) = orbitals (occ x) k).
  { rewrite <- IH. clear IH. rewrite (map_filter_S (fun i => nth i (bitsr (S k) x) false)). apply map_ext. intros i. lia. }
  cbn [seq]. rewrite <- seq_shift. cbn [filter]. change (nth 0 (bitsr (S k) x) false) with (occ x k). cbn [orbitals]. destruct (occ x k); cbn [map]; rewrite E; [f_equal; lia|reflexivity].
Qed.
Lemma count_bitsr k x : py_count (bitsr k x) = length (orbitals (occ x) k).
Proof. unfold py_count. induction k as [|k IH]; [reflexivity|]. cbn [bitsr filter orbitals]. destruct (occ x k); cbn [length]; rewrite IH; reflexivity. Qed.
Lemma filter_seq f n : filter f (seq 0 n) = rev (orbitals f n).
Proof.
  induction n as [|n IH]; [reflexivity|]. rewrite seq_S, filter_app, IH. cbn [filter orbitals]. rewrite Nat.add_0_l. destruct (f n); cbn [rev]; [reflexivity|rewrite app_nil_r; reflexivity].
Qed.
Lemma ones_py x n : (x < 2 ^ N.of_nat n)%N -> ones_from_right (py_bin x) = orbitals (occ x) n /\ py_count (py_bin x) = length (orbitals (occ x) n).
Proof.
  intros H. destruct (py_bin_spec x) as (k & -> & Hk & _). rewrite ones_bitsr, count_bitsr. rewrite (orbitals_size _ n k); [split; reflexivity| |]; intros p Hp; [exact (occ_above x k p Hk Hp)|exact (occ_above x n p H Hp)].
Qed.
Lemma pick_py x ref v : (x < 2 ^ N.of_nat (length ref))%N -> pick (py_bin x) ref v = rev (orbitals (fun p => occ x p && Bool.eqb (nth p ref false) v) (length ref)).
Proof.
  intros H. destruct (py_bin_spec x) as (k & -> & Hk & _). unfold pick. rewrite bitsr_length.
  assert (E : filter (fun i => nth i (rev (bitsr k x)) false && Bool.eqb (nth i ref false) v) (seq 0 k) = filter (fun p => occ x p && Bool.eqb (nth p ref false) v) (seq 0 k)).
  { apply filter_ext_in. intros i Hi. apply in_seq in Hi. rewrite rev_nth, bitsr_length by (rewrite bitsr_length; lia). rewrite bitsr_nth by lia. do 2 f_equal. lia. }
  rewrite E, filter_seq. f_equal. apply orbitals_size; intros p Hp; [rewrite (occ_above x k p Hk Hp)|rewrite (occ_above x _ p H Hp)]; reflexivity.
Qed.

(** ---- masks ---- *)
Lemma mask_alpha_bit p : p < 64 -> occ mask_alpha p = Nat.even p.
Proof. intros H. do 64 (destruct p as [|p]; [reflexivity|]). lia. Qed.
Lemma mask_beta_bit p : p < 64 -> occ mask_beta p = Nat.odd p.
Proof. intros H. do 64 (destruct p as [|p]; [reflexivity|]). lia. Qed.
Lemma occ_land a b p : occ (N.land a b) p = (occ a p && occ b p)%bool.
Proof. apply N.land_spec. Qed.
Lemma even_2 m : Nat.even (2 * m) = true. Proof. rewrite Nat.even_mul. reflexivity. Qed.
Lemma even_S2 m : Nat.even (S (2 * m)) = false. Proof. rewrite Nat.even_succ, Nat.odd_mul. reflexivity. Qed.
Lemma masked_orbitals I m : 2 * m <= 64 ->
  length (orbitals (occ (N.land I mask_alpha)) (2 * m)) = electrons 0 m I /\ length (orbitals (occ (N.land I mask_beta)) (2 * m)) = electrons 1 m I /\
  Permutation (orbitals (occ (N.land I mask_alpha)) (2 * m) ++ orbitals (occ (N.land I mask_beta)) (2 * m)) (orbitals (occ I) (2 * m)).
Proof.
  induction m as [|m IH]; intros H; [split; [reflexivity|split; reflexivity]|]. destruct IH as (I1 & I2 & I3); [lia|]. replace (2 * S m) with (S (S (2 * m))) by lia. cbn [orbitals electrons].
  rewrite !occ_land, !mask_alpha_bit, !mask_beta_bit by lia. unfold Nat.odd. rewrite !even_S2, !even_2. cbn [negb]. rewrite !andb_true_r, !andb_false_r.
  replace (2 * m + 0) with (2 * m) by lia. replace (2 * m + 1) with (S (2 * m)) by lia. rewrite <- I1, <- I2.
  destruct (occ I (2 * m)), (occ I (S (2 * m))); cbn [length app]; (split; [lia|split; [lia|]]).
  - rewrite <- Permutation_middle, perm_swap. constructor. constructor. exact I3.
  - constructor. exact I3.
  - rewrite <- Permutation_middle. constructor. exact I3.
  - exact I3.
Qed.
Lemma land_lt I msk n : (I < 2 ^ N.of_nat n)%N -> (N.land I msk < 2 ^ N.of_nat n)%N.
Proof.
  intros H. destruct (N.eq_dec (N.land I msk) 0) as [->|n0]; [apply N.neq_0_lt_0, N.pow_nonzero; discriminate|]. apply N.log2_lt_pow2; [lia|]. eapply N.le_lt_trans; [apply N.log2_land|].
  destruct (N.eq_dec I 0) as [->|i0]; [rewrite N.land_0_l in n0; congruence|]. apply N.log2_lt_pow2 in H; [|lia]. lia.
Qed.
Lemma lxor_lt a b n : (a < 2 ^ N.of_nat n)%N -> (b < 2 ^ N.of_nat n)%N -> (N.lxor a b < 2 ^ N.of_nat n)%N.
Proof.
  intros Ha Hb. destruct (N.eq_dec (N.lxor a b) 0) as [->|n0]; [apply N.neq_0_lt_0, N.pow_nonzero; discriminate|]. apply N.log2_lt_pow2; [lia|].
  destruct (N.lt_ge_cases (N.log2 (N.lxor a b)) (N.of_nat n)) as [L|L]; [exact L|]. exfalso. pose proof (N.bit_log2 _ n0) as HB. rewrite N.lxor_spec in HB.
  rewrite <- (N2Nat.id (N.log2 _)) in HB. fold (occ a (N.to_nat (N.log2 (N.lxor a b)))) in HB. fold (occ b (N.to_nat (N.log2 (N.lxor a b)))) in HB.
  rewrite (occ_above a n), (occ_above b n) in HB by (assumption || lia). discriminate HB.
Qed.

(** ---- the reference ---- *)
Definition zbit (b : bool) : Z := if b then 1%Z else 0%Z.
Lemma spqe_ref_det ref : spqe_ref ref = det_of 0 (map zbit ref).
Proof.
  unfold spqe_ref. enough (G : forall l k a, fold_left (fun (a : N) (ib : nat * bool) => (a + N.shiftl (if snd ib then 1 else 0) (N.of_nat (fst ib)))%N) (combine (seq k (length l)) l) a = (a + det_of k (map zbit l))%N) by (rewrite G; reflexivity).
  induction l as [|b l IH]; intros k a; [cbn; lia|]. cbn [length seq combine fold_left fst snd map det_of]. rewrite IH. destruct b; cbn [zbit Z.eqb]; [rewrite N.shiftl_1_l|rewrite N.shiftl_0_l]; lia.
Qed.
Lemma zbit_01 ref : Forall (fun o => o = 0 \/ o = 1)%Z (map zbit ref).
Proof. apply Forall_forall. intros z Hz. apply in_map_iff in Hz. destruct Hz as ([|] & <- & _); auto. Qed.
Lemma spqe_ref_bit ref p : occ (spqe_ref ref) p = nth p ref false.
Proof.
  rewrite spqe_ref_det, det_of_bit by apply zbit_01. cbn [Nat.leb andb]. rewrite Nat.sub_0_r. change 0%Z with (zbit false) at 1. rewrite map_nth. destruct (nth p ref false); reflexivity.
Qed.
Lemma spqe_ref_lt ref : (spqe_ref ref < 2 ^ N.of_nat (length ref))%N.
Proof.
  destruct (N.lt_ge_cases (spqe_ref ref) (2 ^ N.of_nat (length ref))) as [L|L]; [exact L|]. exfalso. assert (n0 : spqe_ref ref <> 0%N) by (intros e; rewrite e in L; pose proof (N.pow_nonzero 2 (N.of_nat (length ref))); lia).
  pose proof (N.bit_log2 _ n0) as HB. rewrite <- (N2Nat.id (N.log2 _)) in HB. fold (occ (spqe_ref ref) (N.to_nat (N.log2 (spqe_ref ref)))) in HB. rewrite spqe_ref_bit in HB. rewrite nth_overflow in HB; [discriminate|].
  apply N.log2_le_pow2 in L; lia.
Qed.
Lemma count_every_spec m : forall ref, length ref = 2 * m -> count_every true ref = electrons 0 m (spqe_ref ref) /\ count_every false ref = electrons 1 m (spqe_ref ref).
Proof.
  assert (G : forall m ref D o, length ref = 2 * m -> (forall p, p < 2 * m -> occ D (2 * o + p) = nth p ref false) ->
    count_every true ref = electrons 0 (o + m) D - electrons 0 o D /\ count_every false ref = electrons 1 (o + m) D - electrons 1 o D /\ electrons 0 o D <= electrons 0 (o + m) D /\ electrons 1 o D <= electrons 1 (o + m) D).
  { clear m. induction m as [|m IH]; intros ref D o HL HB.
    - destruct ref; [|discriminate HL]. rewrite Nat.add_0_r, !Nat.sub_diag. repeat split; lia.
    - destruct ref as [|a [|b ref]]; [discriminate HL|cbn in HL; lia|]. cbn [length] in HL. specialize (IH ref D (S o)). destruct IH as (I1 & I2 & I3 & I4); [lia| |].
      + intros p Hp. specialize (HB (S (S p)) ltac:(lia)). cbn [nth] in HB. rewrite <- HB. f_equal. lia.
      + replace (S o + m) with (o + S m) in * by lia. cbn [count_every negb andb]. rewrite I1, I2. cbn [electrons] in I3, I4 |- *. pose proof (HB 0 ltac:(lia)) as B0. pose proof (HB 1 ltac:(lia)) as B1. cbn [nth] in B0, B1. rewrite B0 in *. rewrite B1 in *.
        destruct a, b; cbn [andb] in *; repeat split; lia. }
  intros ref HL. destruct (G m ref (spqe_ref ref) 0 HL) as (G1 & G2 & _); [intros p _; cbn; apply spqe_ref_bit|]. cbn [electrons Nat.add] in *. rewrite G1, G2. split; lia.
Qed.

(** ---- one pool entry ---- *)
Lemma spqe_op_spec srt hl pl : legal_sort srt -> dsorted hl -> dsorted pl -> length hl = length pl -> pl <> hl ->
  exists o, sq_simplify srt (sq_add_term (sq_add_term [] C1 (rev pl) (rev hl)) (- C1)%C (rev (rev hl)) (rev (rev pl))) = Ok o /\ Permutation o [((C1, pl), hl); ((- C1, hl), pl)]%C.
Proof.
  intros HS HH HP HL HN. rewrite !rev_involutive. unfold sq_simplify, sq_canonical_order, sq_add_term. cbn [app mapM].
  rewrite (canon_single srt _ (rev pl) (rev hl) pl hl HS HP HH) by (symmetry; apply Permutation_rev). cbn [bind].
  rewrite (canon_single srt _ hl pl hl pl HS HH HP) by reflexivity. cbn [bind].
  rewrite (dsorted_inversions pl HP), (dsorted_inversions hl HH), (rev_inversions hl HH), (rev_inversions pl HP), HL. cbn [Nat.odd Nat.even negb].
  set (b := Nat.odd _). change (Nat.odd 0) with false. change (sgn false) with C1.
  replace (- C1 * C1 * C1)%C with (- C1)%C by ring. replace (C1 * sgn b * sgn b)%C with C1 by (destruct b; unfold sgn; ring).
  unfold fcre, fann, fcoef. cbn [fold_left fst snd sq_accumulate].
  assert (K1 : Rltb 1e-12 (Cabs C1) = true) by (apply Rltb_true; rewrite Cabs_C1; lra). assert (K2 : Rltb 1e-12 (Cabs (- C1)) = true) by (apply Rltb_true; rewrite Cabs_neg, Cabs_C1; lra).
  destruct (pair_ltb (hl, pl) (pl, hl)) eqn:E1; [|destruct (pair_ltb (pl, hl) (hl, pl)) eqn:E2].
  - cbn [filter snd fst]. rewrite K1, K2. cbn [map fst snd]. eexists. split; [reflexivity|]. apply perm_swap.
  - cbn [filter snd fst]. rewrite K1, K2. cbn [map fst snd]. eexists. split; [reflexivity|]. reflexivity.
  - exfalso. pose proof (pair_ltb_total _ _ E1 E2) as E. injection E as E _. congruence.
Qed.
(** same numbers of alpha and beta electrons, total irrep [irrep], 1 to [max] electrons moved *)
Definition in_pool (m : nat) (irreps : list N) (irrep : N) (max : nat) (R D : N) : bool :=
  Nat.eqb (electrons 0 m D) (electrons 0 m R) && Nat.eqb (electrons 1 m D) (electrons 1 m R) && N.eqb (total_irrep irreps (orbitals (occ D) (2 * m))) irrep &&
  (negb (Nat.eqb (length (holes R D (2 * m))) 0) && Nat.leb (length (holes R D (2 * m))) max).
Lemma total_irrep_perm irr l l' : Permutation l l' -> total_irrep irr l = total_irrep irr l'.
Proof. unfold total_irrep. induction 1; cbn [map fold_right]; auto; [rewrite IHPermutation; reflexivity| |congruence]. rewrite <- !N.lxor_assoc. f_equal. apply N.lxor_comm. Qed.
Lemma spqe_entry_spec srt ref m irreps irrep max D pool : legal_sort srt -> length ref = 2 * m -> 2 * m <= 64 -> m <= length irreps -> (D < 2 ^ N.of_nat (2 * m))%N ->
  if in_pool m irreps irrep max (spqe_ref ref) D
  then exists t, spqe_entry srt ref irreps irrep max D pool = Ok (pool ++ [(D, t)])%list /\ Permutation t (excitation (spqe_ref ref) D (2 * m))
  else spqe_entry srt ref irreps irrep max D pool = Ok pool.
Proof.
  intros HS HL Hm HI HD. pose proof (spqe_ref_lt ref) as HR. rewrite HL in HR. destruct (count_every_spec m ref HL) as [CA CB]. destruct (masked_orbitals D m Hm) as (MA & MB & MP).
  unfold spqe_entry, in_pool. destruct (ones_py _ _ (land_lt D mask_alpha _ HD)) as [OA PA]. destruct (ones_py _ _ (land_lt D mask_beta _ HD)) as [OB PB]. rewrite PA, PB, OA, OB, MA, MB, CA, CB. set (R := spqe_ref ref) in *.
  destruct (Nat.eqb_spec (electrons 0 m D) (electrons 0 m R)) as [E0|E0]; cbn [andb]; [|reflexivity]. destruct (Nat.eqb_spec (electrons 1 m D) (electrons 1 m R)) as [E1|E1]; cbn [andb]; [|reflexivity].
  rewrite find_irrep_ok.
  2:{ eapply Permutation_Forall; [symmetry; exact MP|]. apply Forall_forall. intros p Hp. apply orbitals_in in Hp. assert (p / 2 < m) by (apply Nat.div_lt_upper_bound; lia). lia. }
  cbn [bind]. rewrite (total_irrep_perm _ _ _ MP). destruct (N.eqb _ irrep); cbn [andb]; [|reflexivity].
  assert (HLen : length (particles R D (2 * m)) = length (holes R D (2 * m))).
  { pose proof (hole_count R D (2 * m)) as H. rewrite !electron_count in H. lia. }
  destruct (ones_py (N.lxor R D) (2 * m) (lxor_lt _ _ _ HR HD)) as [_ PX]. rewrite PX.
  assert (EX : length (orbitals (occ (N.lxor R D)) (2 * m)) = 2 * length (holes R D (2 * m))).
  { rewrite <- count_bitsr. unfold py_count. rewrite xor_count. lia. }
  rewrite EX. rewrite (Nat.mul_comm 2 (length _)), Nat.div_mul by discriminate.
  assert (XZ : N.eqb (N.lxor R D) 0 = Nat.eqb (length (holes R D (2 * m))) 0).
  { destruct (N.eqb_spec (N.lxor R D) 0) as [e|n].
    - symmetry. apply Nat.eqb_eq. rewrite e in EX. assert (EO : orbitals (occ 0) (2 * m) = []) by (clear; induction (2 * m) as [|k IH]; [reflexivity|]; cbn [orbitals]; unfold occ at 1; rewrite N.bits_0; exact IH). rewrite EO in EX. cbn [length] in EX. lia.
    - symmetry. apply Nat.eqb_neq. intros e. rewrite e in EX. apply n. apply N.bits_inj_0. intros q. rewrite <- (N2Nat.id q). fold (occ (N.lxor R D) (N.to_nat q)).
      destruct (Nat.lt_ge_cases (N.to_nat q) (2 * m)) as [Lq|Lq]; [|apply (occ_above _ (2 * m)); [apply lxor_lt; assumption|exact Lq]].
      destruct (occ (N.lxor R D) (N.to_nat q)) eqn:EQ; [|reflexivity]. assert (HIn : In (N.to_nat q) (orbitals (occ (N.lxor R D)) (2 * m))) by (apply orbitals_in; auto).
      destruct (orbitals (occ (N.lxor R D)) (2 * m)); [destruct HIn|cbn [length] in EX; lia]. }
  rewrite XZ. destruct (Nat.eqb_spec (length (holes R D (2 * m))) 0) as [L0|L0]; cbn [negb andb]; [reflexivity|]. destruct (Nat.leb (length (holes R D (2 * m))) max); [|reflexivity].
  rewrite !pick_py by (rewrite HL; apply lxor_lt; assumption). rewrite HL.
  assert (EH : orbitals (fun p => occ (N.lxor R D) p && Bool.eqb (nth p ref false) true) (2 * m) = holes R D (2 * m)).
  { apply orbitals_ext. intros p _. rewrite <- spqe_ref_bit. fold R. unfold occ. rewrite N.lxor_spec. destruct (N.testbit R _), (N.testbit D _); reflexivity. }
  assert (EP : orbitals (fun p => occ (N.lxor R D) p && Bool.eqb (nth p ref false) false) (2 * m) = particles R D (2 * m)).
  { apply orbitals_ext. intros p _. rewrite <- spqe_ref_bit. fold R. unfold occ. rewrite N.lxor_spec. destruct (N.testbit R _), (N.testbit D _); reflexivity. }
  rewrite EH, EP. destruct (spqe_op_spec srt (holes R D (2 * m)) (particles R D (2 * m)) HS (orbitals_sorted _ _) (orbitals_sorted _ _) (eq_sym HLen)) as (o & EO & HO).
  { intros E. destruct (particles R D (2 * m)) as [|p r] eqn:EQ; [rewrite <- E in L0; apply L0; reflexivity|].
    assert (H1 : In p (particles R D (2 * m))) by (rewrite EQ; left; reflexivity). assert (H2 : In p (holes R D (2 * m))) by (rewrite <- E; left; reflexivity).
    apply orbitals_in in H1, H2. destruct (occ R p), (occ D p); cbn in *; destruct H1, H2; discriminate. }
  rewrite EO. cbn [bind]. exists o. split; [reflexivity|exact HO].
Qed.
Lemma pool_entries srt ref m irreps irrep max : legal_sort srt -> length ref = 2 * m -> 2 * m <= 64 -> m <= length irreps -> forall dets pool, (forall D, In D dets -> (D < 2 ^ N.of_nat (2 * m))%N) ->
  exists added, foreach dets (spqe_entry srt ref irreps irrep max) pool = Ok (pool ++ added)%list /\ map fst added = filter (in_pool m irreps irrep max (spqe_ref ref)) dets /\
    Forall (fun e => Permutation (snd e) (excitation (spqe_ref ref) (fst e) (2 * m))) added.
Proof.
  intros HS HL Hm HI. induction dets as [|D dets IH]; intros pool HD; [exists []; rewrite app_nil_r; repeat split; constructor|]. cbn [foreach filter].
  pose proof (spqe_entry_spec srt ref m irreps irrep max D pool HS HL Hm HI (HD D (or_introl eq_refl))) as HE. destruct (in_pool m irreps irrep max (spqe_ref ref) D).
  - destruct HE as (t & -> & HP). cbn [bind]. destruct (IH (pool ++ [(D, t)])%list) as (ad & -> & HF & HA); [intros; apply HD; right; assumption|]. exists ((D, t) :: ad). rewrite <- app_assoc. split; [reflexivity|]. cbn [map fst]. rewrite HF. split; [reflexivity|]. constructor; assumption.
  - rewrite HE. cbn [bind]. apply IH. intros; apply HD; right; assumption.
Qed.
Lemma all_dets_in n D : In D (all_dets n) <-> (D < 2 ^ N.of_nat n)%N.
Proof.
  unfold all_dets. rewrite in_map_iff. assert (E : N.of_nat (2 ^ n) = (2 ^ N.of_nat n)%N) by (induction n as [|n IH]; [reflexivity|]; rewrite Nat.pow_succ_r', Nat2N.inj_succ, N.pow_succ_r', <- IH; apply Nat2N.inj_mul).
  split; [intros (k & <- & Hk); apply in_seq in Hk; lia|]. intros H. exists (N.to_nat D). split; [apply N2Nat.id|]. apply in_seq. lia.
Qed.
Lemma all_dets_sorted n : StronglySorted N.lt (all_dets n).
Proof.
  unfold all_dets. generalize (2 ^ n) as k. intros k. generalize 0 as s. induction k as [|k IH]; intros s; cbn [seq map]; [constructor|]. constructor; [apply IH|].
  apply Forall_forall. intros x Hx. apply in_map_iff in Hx. destruct Hx as (i & <- & Hi). apply in_seq in Hi. lia.
Qed.
