(** Property theorems C32 (excitation pools), C35 (find_irrep), C36 (QubitBasis). *)
From Coq Require Import Reals String List Arith NArith ZArith Bool Lia Lra Permutation Sorted.
From Verif Require Import CBase Result Bits Spec SQSpec GateModel LibProofs OperatorModel SQModel SQPhase SQProofs SQPoolSpec SQPoolModel SQPoolProofs SQPoolOps FermiProofs.
From Verif Require PropSQ.
Import ListNotations.

(** ---- C32 ---- *)
(** the pool types and their highest excitation rank *)
Definition pool_types : list (string * nat) := [("S", 1); ("SD", 2); ("SDT", 3); ("SDTQ", 4); ("SDTQP", 5); ("SDTQPH", 6)]%string.
(** a reference: occupations 0/1 of 2m spin orbitals, as a list and as a determinant *)
Definition Reference (m : nat) (ref : list Z) (R : N) : Prop :=
  length ref = 2 * m /\ Forall (fun o => o = 0 \/ o = 1)%Z ref /\ (R < 2 ^ N.of_nat (2 * m))%N /\ forall p, p < 2 * m -> occ R p = Z.eqb (nth p ref 0%Z) 1.
(** at most 64 spin orbitals, the occupied ones among the first 31 *)
Definition FitsInt (ref : list Z) : Prop := length ref <= 64 /\ forall p, 31 <= p -> nth p ref 0%Z = 0%Z.
Definition Irreps (m : nat) (irreps : list N) : Prop := irreps = [] \/ m <= length irreps.
(** in each spin the lowest orbitals are the occupied ones *)
Definition Aufbau (m : nat) (R : N) : Prop := forall s, s < 2 -> exists e, forall k, k < m -> occ R (2 * k + s) = Nat.ltb k e.

Lemma spaces_ok m ref irr R : Reference m ref R -> FitsInt ref -> Irreps m irr ->
  exists sp, set_orb_spaces ref irr = Ok sp /\ n_spinorb sp = 2 * m /\ ref_int sp = R /\ m <= length (orb_irreps sp) /\
    forall l, total_irrep (orb_irreps sp) l = total_irrep irr l.
Proof.
  intros (HL & H01 & HR & HO) (H64 & H31) HI. unfold set_orb_spaces. rewrite HL. replace (Nat.odd (2 * m)) with false by (rewrite Nat.odd_mul; reflexivity).
  eexists. split; [reflexivity|]. cbn [n_spinorb ref_int orb_irreps]. split; [reflexivity|]. split.
  - unfold ref_int_of. change (0%N, 1%Z) with (0%N, wrap32 (2 ^ Z.of_nat 0)). rewrite ref_int_acc; [|assumption|intros; apply H31; lia|lia|reflexivity]. rewrite N.add_0_l.
    apply N.bits_inj. intros q. rewrite <- (N2Nat.id q). fold (occ (det_of 0 ref) (N.to_nat q)). fold (occ R (N.to_nat q)). rewrite det_of_bit by assumption. rewrite Nat.sub_0_r. cbn [Nat.leb andb].
    destruct (Nat.lt_ge_cases (N.to_nat q) (2 * m)) as [L|L]; [symmetry; apply HO, L|]. rewrite nth_overflow by lia. unfold occ.
    destruct (N.eq_dec R 0) as [->|n0]; [rewrite N.bits_0; reflexivity|]. rewrite N.bits_above_log2; [reflexivity|]. apply N.log2_lt_pow2; [lia|]. eapply N.lt_le_trans; [exact HR|]. apply N.pow_le_mono_r; lia.
  - destruct HI as [->|HI].
    + rewrite Nat.mul_comm, Nat.div_mul by discriminate. rewrite repeat_length. split; [lia|]. intros l. unfold total_irrep. f_equal. apply map_ext. intros p.
      transitivity 0%N; [|destruct (p / 2); reflexivity]. apply nth_repeat.
    + destruct irr as [|x irr]; [cbn in HI|split; [exact HI|reflexivity]]. assert (m = 0) by lia. subst m. split; [cbn; lia|]. reflexivity.
Qed.
Lemma pool_max t m : In (t, m) pool_types -> max_nbody_of t = Some m.
Proof. intros H. cbn in H. repeat (destruct H as [H|H]; [injection H as <- <-; reflexivity|]). destruct H. Qed.

(** exact contents of the pool for every reference: in increasing order of the determinant,
    one operator T - T^dagger with coefficient 1 for each excited determinant whose alpha and
    beta strings are not below those of the reference *)
Theorem C32_pool_contents : forall srt, legal_sort srt -> forall m ref R irreps t max, Reference m ref R -> FitsInt ref -> Irreps m irreps -> In (t, max) pool_types ->
  exists sp pool dets, set_orb_spaces ref irreps = Ok sp /\ fill_pool_excitations srt sp t [] = Ok pool /\
    StronglySorted N.lt dets /\
    (forall D, In D dets <-> Excited m irreps max R D /\ forall s, s < 2 -> (spin_string s m R <= spin_string s m D)%N) /\
    Forall2 (fun D e => fst e = C1 /\ Permutation (snd e) (excitation R D (2 * m))) dets pool.
Proof.
  intros srt HS m ref R irr t max HR HF HI Ht. destruct (spaces_ok m ref irr R HR HF HI) as (sp & E & Hn & ER & Hm & HT). assert (H64 : 2 * m <= 64) by (destruct HR as [<- _]; apply HF).
  destruct (fill_pool_rank_spec srt sp m max [] HS Hn H64 Hm) as (ad & dets & EP & HSt & HIn & HF2). rewrite ER in *. exists sp, ad, dets. split; [exact E|]. split.
  - unfold fill_pool_excitations. rewrite (pool_max t max Ht). exact EP.
  - split; [exact HSt|]. split; [|exact HF2]. intros D. rewrite HIn. unfold Excited. rewrite HT. reflexivity.
Qed.
Print Assumptions C32_pool_contents.

Lemma aufbau_string m R s : (exists e, forall k, k < m -> occ R (2 * k + s) = Nat.ltb k e) -> (spin_string s m R + 1 = 2 ^ N.of_nat (electrons s m R))%N.
Proof.
  intros (e & H). enough (G : electrons s m R = min m e /\ (spin_string s m R + 1 = 2 ^ N.of_nat (min m e))%N) by (destruct G as [-> ->]; reflexivity).
  induction m as [|m IH]; [split; reflexivity|]. destruct IH as [I1 I2]; [intros; apply H; lia|]. cbn [electrons spin_string]. rewrite H by lia. rewrite I1. destruct (Nat.ltb_spec m e).
  - replace (min (S m) e) with (S m) by lia. replace (min m e) with m in * by lia. split; [lia|]. rewrite Nat2N.inj_succ, N.pow_succ_r'. lia.
  - replace (min (S m) e) with (min m e) by lia. split; lia.
Qed.
(** aufbau references (what the code builds by itself): the pool is complete *)
Theorem C32_aufbau_pool_partial : forall srt, legal_sort srt -> forall m ref R irreps t max, Reference m ref R -> FitsInt ref -> Irreps m irreps -> In (t, max) pool_types ->
  Aufbau m R ->
  exists sp pool dets, set_orb_spaces ref irreps = Ok sp /\ fill_pool_excitations srt sp t [] = Ok pool /\
    StronglySorted N.lt dets /\ (forall D, In D dets <-> Excited m irreps max R D) /\
    Forall2 (fun D e => fst e = C1 /\ Permutation (snd e) (excitation R D (2 * m))) dets pool.
Proof.
  intros srt HS m ref R irr t max HR HF HI Ht HA. destruct (C32_pool_contents srt HS m ref R irr t max HR HF HI Ht) as (sp & pool & dets & E1 & E2 & HSt & HIn & H2).
  exists sp, pool, dets. repeat (split; [assumption|]). split; [|exact H2]. intros D. rewrite HIn. split; [intros [H _]; exact H|]. intros H. split; [exact H|].
  intros s Hs. pose proof (aufbau_string m R s (HA s Hs)) as EA. destruct H as (_ & HE & _). rewrite <- (HE s Hs) in EA.
  assert (HM : (2 ^ N.of_nat (electrons s m D) <= spin_string s m D + 1)%N).
  { destruct s as [|[|s]]; [| |lia].
    - destruct (eo_false m D) as (<- & <- & _). apply bval_min.
    - destruct (eo_true m D) as (<- & <- & _). apply bval_min. }
  lia.
Qed.
Print Assumptions C32_aufbau_pool_partial.
Lemma creates_zero l : fold_right create szero l == szero.
Proof. induction l as [|h hs IH]; intros J; [reflexivity|]. cbn [fold_right]. rewrite (create_ext h _ _ IH J). unfold create, szero. destruct (bit J h); [ring|reflexivity]. Qed.
(** what such an operator does: it maps the reference to plus or minus the excited
    determinant and is anti-Hermitian *)
Theorem C32_operator_meaning : forall m irreps max R D o, (R < 2 ^ N.of_nat (2 * m))%N -> Excited m irreps max R D -> Permutation o (excitation R D (2 * m)) ->
  (exists s, (s = C1 \/ s = (- C1)%C) /\ fermi_act o (ket (N.to_nat R)) == sscale s (ket (N.to_nat D))) /\
  forall a b, inner (2 * m) a (fermi_act o b) = (- inner (2 * m) (fermi_act o a) b)%C.
Proof.
  intros m irr max R D o HR (HD & HE & HK & _) HP. set (n := 2 * m) in *.
  assert (HL : length (particles R D n) = length (holes R D n)).
  { pose proof (hole_count R D n) as H. unfold n in H. rewrite !electron_count in H. rewrite (HE 0), (HE 1) in H by lia. fold n in H. lia. }
  split.
  - destruct (ladder_excites R D n HR HD) as (s & Hs & E). exists s. split; [exact Hs|]. intros I. rewrite (fermi_perm _ _ _ HP I).
    unfold fermi_act, excitation. rewrite !Csum_cons, Csum_nil. unfold fcoef, fcre, fann; cbn [fst snd]. rewrite (E I).
    assert (EZ : ladder_act (holes R D n) (particles R D n) (ket (N.to_nat R)) I = C0).
    { unfold ladder_act. destruct (particles R D n) as [|p r] eqn:Ep; [cbn [length] in HL; lia|]. assert (Hin : In p (particles R D n)) by (rewrite Ep; left; reflexivity).
      apply orbitals_in in Hin. destruct Hin as [_ Hin]. apply andb_true_iff in Hin. destruct Hin as [_ Hin]. apply negb_true_iff in Hin.
      rewrite (creates_ext _ _ szero (annihilates_zero p (p :: r) (N.to_nat R) (or_introl eq_refl) (eq_trans (occ_bit R p) Hin)) I).
      apply creates_zero. }
    rewrite EZ. ring.
  - intros a b. rewrite (inner_ext n a a _ _ (fun I => eq_refl) (fermi_perm _ _ b HP)). rewrite (inner_ext n _ _ b b (fermi_perm _ _ a HP) (fun I => eq_refl)).
    rewrite (inner_conj n (fermi_act _ a)), !inner_fermi. unfold excitation. rewrite !Csum_cons, !Csum_nil. unfold fcoef, fcre, fann; cbn [fst snd].
    assert (HB : forall f, Forall (fun p => p < n) (orbitals f n)) by (intros f; apply Forall_forall; intros p Hp; apply orbitals_in in Hp; lia).
    assert (HX : forall x y, inner n x (ladder_act (particles R D n) (holes R D n) y) = inner n (ladder_act (holes R D n) (particles R D n) x) y).
    { intros x y. rewrite inner_ladder by apply HB. apply inner_ext; [|intros I; reflexivity]. apply ladder_rev; [apply orbitals_sorted|apply orbitals_sorted|exact HL]. }
    assert (HY : forall x y, inner n x (ladder_act (holes R D n) (particles R D n) y) = inner n (ladder_act (particles R D n) (holes R D n) x) y).
    { intros x y. rewrite inner_ladder by apply HB. apply inner_ext; [|intros I; reflexivity]. apply ladder_rev; [apply orbitals_sorted|apply orbitals_sorted|symmetry; exact HL]. }
    rewrite !Cconj_add, !Cconj_mul, <- !inner_conj. rewrite !HX, !HY. replace (Cconj C1) with C1 by csolve. replace (Cconj (- C1)) with (- C1)%C by csolve. replace (Cconj C0) with C0 by csolve. ring.
Qed.
Print Assumptions C32_operator_meaning.
(** not complete for other references: H2-like, two electrons in the upper of two orbitals *)
Theorem C32_non_aufbau_refuted : forall srt, exists ref R sp D, Reference 2 ref R /\ FitsInt ref /\
  set_orb_spaces ref [] = Ok sp /\ fill_pool_excitations srt sp "SD" [] = Ok [] /\ Excited 2 [] 2 R D.
Proof.
  intros srt. exists [0; 0; 1; 1]%Z, 12%N. eexists. exists 3%N. split; [|split; [|split; [reflexivity|split]]].
  - split; [reflexivity|]. split; [repeat (constructor; [auto|]); constructor|]. split; [reflexivity|]. intros p Hp. do 4 (destruct p as [|p]; [reflexivity|]). cbn in Hp; lia.
  - split; [cbn; lia|]. intros p Hp. apply nth_overflow. cbn; lia.
  - vm_compute. reflexivity.
  - split; [reflexivity|]. split; [intros [|[|s]] Hs; [reflexivity|reflexivity|lia]|]. split; [vm_compute; lia|reflexivity].
Qed.
Print Assumptions C32_non_aufbau_refuted.
(** nor for an aufbau reference whose 32nd spin orbital is occupied: the int multiplier
    overflows and every orbital looks occupied, so the pool is empty *)
Theorem C32_int_overflow_refuted : forall srt, exists ref R sp D, Reference 17 ref R /\ Aufbau 17 R /\
  set_orb_spaces ref [] = Ok sp /\ fill_pool_excitations srt sp "SD" [] = Ok [] /\ Excited 17 [] 2 R D.
Proof.
  intros srt. exists (repeat 1 32 ++ [0; 0])%list%Z, (2 ^ 32 - 1)%N. eexists. exists (2 ^ 33 - 1 - 2 ^ 30)%N. split; [|split; [|split; [reflexivity|split]]].
  - split; [reflexivity|]. split; [apply Forall_app; split; [apply Forall_forall; intros z Hz; apply repeat_spec in Hz; auto|repeat (constructor; [auto|]); constructor]|].
    split; [reflexivity|]. intros p Hp. do 34 (destruct p as [|p]; [reflexivity|]). lia.
  - intros s Hs. exists 16. intros k Hk. destruct s as [|[|s]]; [| |lia]; do 17 (destruct k as [|k]; [reflexivity|]); lia.
  - vm_compute. reflexivity.
  - split; [reflexivity|]. split; [intros [|[|s]] Hs; [reflexivity|reflexivity|lia]|]. split; [vm_compute; lia|reflexivity].
Qed.
Print Assumptions C32_int_overflow_refuted.
Example C32_nonvacuous : Reference 2 [1; 1; 0; 0]%Z 3 /\ FitsInt [1; 1; 0; 0]%Z /\ Irreps 2 [0; 0]%N /\ Aufbau 2 3 /\
  Excited 2 [0; 0]%N 2 3 12 /\ Excited 2 [0; 0]%N 2 3 9 /\ ~ Excited 2 [0; 1]%N 2 3 9 /\ excitation 3 12 4 = [((C1, [3; 2]), [1; 0]); (((- C1)%C, [1; 0]), [3; 2])].
Proof.
  split; [|split; [|split; [right; cbn; lia|split; [|split; [|split; [|split; [|reflexivity]]]]]]].
  - split; [reflexivity|]. split; [repeat (constructor; [auto|]); constructor|]. split; [reflexivity|]. intros p Hp. do 4 (destruct p as [|p]; [reflexivity|]). cbn in Hp; lia.
  - split; [cbn; lia|]. intros p Hp. apply nth_overflow. cbn; lia.
  - intros s Hs. exists 1. intros k Hk. destruct s as [|[|s]]; [| |lia]; do 2 (destruct k as [|k]; [reflexivity|]); lia.
  - split; [reflexivity|]. split; [intros [|[|s]] Hs; [reflexivity|reflexivity|lia]|]. split; [vm_compute; lia|reflexivity].
  - split; [reflexivity|]. split; [intros [|[|s]] Hs; [reflexivity|reflexivity|lia]|]. split; [vm_compute; lia|reflexivity].
  - intros (_ & _ & _ & H). discriminate H.
Qed.

(** ---- C35 ---- *)
Theorem C35_find_irrep : forall irreps,
  (forall l, (exists x, find_irrep irreps l = Ok x) <-> Forall (fun p => p / 2 < length irreps) l) /\
  (forall l l', Permutation l l' -> find_irrep irreps l = find_irrep irreps l') /\
  (forall l l' x y, find_irrep irreps l = Ok x -> find_irrep irreps l' = Ok y -> find_irrep irreps (l ++ l') = Ok (N.lxor x y)) /\
  (forall k, k < length irreps -> find_irrep irreps [2 * k; 2 * k + 1] = Ok 0%N) /\
  (forall k s, k < length irreps -> s < 2 -> find_irrep irreps [2 * k + s] = Ok (nth k irreps 0%N)).
Proof.
  intros irr.
  assert (HOK : forall l, (exists x, find_irrep irr l = Ok x) <-> Forall (fun p => p / 2 < length irr) l).
  { intros l. split; [|intros H; eexists; apply find_irrep_ok, H]. intros (x & E). destruct (Forall_dec (fun p => p / 2 < length irr) (fun p => Compare_dec.lt_dec _ _) l) as [H|H]; [exact H|]. rewrite (find_irrep_fail irr l H) in E. discriminate. }
  assert (HTP : forall l l', Permutation l l' -> total_irrep irr l = total_irrep irr l').
  { unfold total_irrep. induction 1; cbn [map fold_right]; auto; [rewrite IHPermutation; reflexivity| |congruence]. rewrite <- !N.lxor_assoc. f_equal. apply N.lxor_comm. }
  assert (HTA : forall l l', total_irrep irr (l ++ l') = N.lxor (total_irrep irr l) (total_irrep irr l')).
  { unfold total_irrep. induction l as [|p l IH]; intros l'; cbn [app map fold_right]; [rewrite N.lxor_0_l; reflexivity|]. rewrite IH, N.lxor_assoc. reflexivity. }
  assert (HD : forall k s, s < 2 -> (2 * k + s) / 2 = k) by (intros k s Hs; symmetry; apply (Nat.div_unique _ 2 k s); lia).
  split; [exact HOK|]. split; [|split; [|split]].
  - intros l l' HP. destruct (Forall_dec (fun p => p / 2 < length irr) (fun p => Compare_dec.lt_dec _ _) l) as [H|H].
    + assert (H' : Forall (fun p => p / 2 < length irr) l') by (eapply Permutation_Forall; eauto). rewrite !find_irrep_ok by assumption. rewrite (HTP _ _ HP). reflexivity.
    + assert (H' : ~ Forall (fun p => p / 2 < length irr) l') by (intros H'; apply H; eapply Permutation_Forall; [symmetry; exact HP|exact H']). rewrite !find_irrep_fail by assumption. reflexivity.
  - intros l l' x y E1 E2. pose proof (proj1 (HOK l) (ex_intro _ x E1)) as H1. pose proof (proj1 (HOK l') (ex_intro _ y E2)) as H2.
    rewrite find_irrep_ok in E1, E2 by assumption. injection E1 as <-. injection E2 as <-. rewrite find_irrep_ok by (apply Forall_app; split; assumption). rewrite HTA. reflexivity.
  - intros k Hk. assert (E0 : (2 * k) / 2 = k) by (rewrite <- (HD k 0) at 2 by lia; f_equal; lia). rewrite find_irrep_ok.
    + unfold total_irrep. cbn [map fold_right]. rewrite E0, (HD k 1) by lia. rewrite N.lxor_0_r, N.lxor_nilpotent. reflexivity.
    + constructor; [rewrite E0; exact Hk|]. constructor; [rewrite HD by lia; exact Hk|constructor].
  - intros k s Hk Hs. rewrite find_irrep_ok by (constructor; [rewrite HD by exact Hs; exact Hk|constructor]). unfold total_irrep. cbn [map fold_right]. rewrite HD by exact Hs. rewrite N.lxor_0_r. reflexivity.
Qed.
Print Assumptions C35_find_irrep.
Example C35_nonvacuous : find_irrep [0; 3; 1; 2]%N [0; 1; 3; 7; 4] = Ok 0%N /\ find_irrep [0; 3]%N [2; 5] = Throw UB_oob.
Proof. split; reflexivity. Qed.

(** ---- C36 ---- *)
(** a 64-bit basis state; the operations against the unbounded [bit], [upd], [flip] used by
    the simulator specification *)
Lemma mask_ok pos : pos < 64 -> maskbit pos = Ok (2 ^ N.of_nat pos)%N.
Proof. intros H. unfold maskbit. apply Nat.ltb_lt in H. rewrite H. rewrite N.shiftl_1_l. reflexivity. Qed.
Lemma u64_bits x : (x < 2 ^ 64)%N -> forall k, 64 <= k -> occ x k = false.
Proof.
  intros H k Hk. unfold occ. destruct (N.eq_dec x 0) as [->|n0]; [apply N.bits_0|]. apply N.bits_above_log2. apply N.log2_lt_pow2; [lia|]. eapply N.lt_le_trans; [exact H|]. apply N.pow_le_mono_r; lia.
Qed.
Lemma bits_u64 x : (forall k, 64 <= k -> occ x k = false) -> (x < 2 ^ 64)%N.
Proof.
  intros H. destruct (N.eq_dec x 0) as [->|n0]; [reflexivity|]. apply N.log2_lt_pow2; [lia|]. destruct (N.lt_ge_cases (N.log2 x) 64) as [L|L]; [exact L|]. exfalso.
  specialize (H (N.to_nat (N.log2 x)) ltac:(lia)). unfold occ in H. rewrite N2Nat.id, N.bit_log2 in H by exact n0. discriminate.
Qed.
Lemma pow_occ p k : occ (2 ^ N.of_nat p) k = Nat.eqb k p.
Proof. unfold occ. rewrite N.pow2_bits_eqb. destruct (Nat.eqb_spec k p); [subst; apply N.eqb_refl|]. apply N.eqb_neq. lia. Qed.
Lemma ones_occ k : k < 64 -> occ (2 ^ 64 - 1) k = true.
Proof. intros H. do 64 (destruct k as [|k]; [reflexivity|]). lia. Qed.
Theorem C36_basis_bits : forall state pos, (state < 2 ^ 64)%N -> pos < 64 ->
  qb_get_bit state pos = Ok (bit (N.to_nat state) pos) /\
  (forall v, exists s', qb_set_bit state pos v = Ok s' /\ (s' < 2 ^ 64)%N /\ N.to_nat s' = upd (N.to_nat state) pos v) /\
  (exists s', qb_flip_bit state pos = Ok s' /\ (s' < 2 ^ 64)%N /\ N.to_nat s' = flip (N.to_nat state) pos).
Proof.
  intros x p Hx Hp. unfold qb_get_bit, qb_set_bit, qb_flip_bit. rewrite (mask_ok p Hp). cbn [bind]. split; [|split].
  - f_equal. rewrite occ_bit. unfold occ. destruct (N.testbit x (N.of_nat p)) eqn:E.
    + destruct (N.eqb_spec (N.land x (2 ^ N.of_nat p)) 0) as [e|_]; [|reflexivity]. exfalso.
      assert (HB : N.testbit (N.land x (2 ^ N.of_nat p)) (N.of_nat p) = false) by (rewrite e; apply N.bits_0). rewrite N.land_spec, E, N.pow2_bits_eqb, N.eqb_refl in HB. discriminate.
    + destruct (N.eqb_spec (N.land x (2 ^ N.of_nat p)) 0) as [_|n]; [reflexivity|]. exfalso. apply n. apply N.bits_inj_0. intros q. rewrite N.land_spec, N.pow2_bits_eqb.
      destruct (N.eqb_spec (N.of_nat p) q) as [<-|_]; [rewrite E; reflexivity|apply andb_false_r].
  - intros v. eexists. split; [reflexivity|]. set (s' := N.lxor x _).
    assert (HS : forall k, occ s' k = if Nat.eqb k p then v else occ x k).
    { intros k. unfold s'. unfold occ at 1. rewrite N.lxor_spec, N.land_spec, N.lxor_spec. fold (occ x k). fold (occ (2 ^ N.of_nat p) k). rewrite pow_occ. destruct (Nat.eqb_spec k p) as [->|_]; [|rewrite andb_false_r, xorb_false_r; reflexivity].
      destruct v; [fold (occ (2 ^ 64 - 1) p); rewrite ones_occ by exact Hp|rewrite N.bits_0]; destruct (occ x p); reflexivity. }
    split; [apply bits_u64; intros k Hk; rewrite HS; destruct (Nat.eqb_spec k p); [lia|apply u64_bits; assumption]|].
    apply bits_ext. intros k. rewrite occ_bit, HS, bit_upd, occ_bit. reflexivity.
  - eexists. split; [reflexivity|]. set (s' := N.lxor x _).
    assert (HS : forall k, occ s' k = if Nat.eqb k p then negb (occ x k) else occ x k).
    { intros k. unfold s'. unfold occ at 1. rewrite N.lxor_spec. fold (occ x k). fold (occ (2 ^ N.of_nat p) k). rewrite pow_occ. destruct (Nat.eqb k p), (occ x k); reflexivity. }
    split; [apply bits_u64; intros k Hk; rewrite HS; destruct (Nat.eqb_spec k p); [lia|apply u64_bits; assumption]|].
    apply bits_ext. intros k. rewrite occ_bit, HS, bit_flip, occ_bit. reflexivity.
Qed.
Print Assumptions C36_basis_bits.
(** the user-visible consequences *)
Theorem C36_get_set_flip : forall state pos v, (state < 2 ^ 64)%N -> pos < 64 ->
  exists s f, qb_set_bit state pos v = Ok s /\ qb_flip_bit state pos = Ok f /\
    qb_get_bit s pos = Ok v /\ qb_get_bit f pos = Ok (negb (bit (N.to_nat state) pos)) /\ qb_flip_bit f pos = Ok state /\
    (forall k, k < 64 -> k <> pos -> qb_get_bit s k = qb_get_bit state k /\ qb_get_bit f k = qb_get_bit state k) /\
    (forall n, pos < n -> (state < 2 ^ N.of_nat n)%N -> (s < 2 ^ N.of_nat n)%N /\ (f < 2 ^ N.of_nat n)%N).
Proof.
  intros x p v Hx Hp. destruct (C36_basis_bits x p Hx Hp) as (G & S & s' & F & Fl & Fe). destruct (S v) as (s & Es & Hs & Ev). exists s, s'. split; [exact Es|]. split; [exact F|].
  destruct (C36_basis_bits s p Hs Hp) as (G1 & _ & _). destruct (C36_basis_bits s' p Fl Hp) as (G2 & _ & x' & F2 & _ & Fe2).
  split; [rewrite G1, Ev, bit_upd_same; reflexivity|]. split; [rewrite G2, Fe, bit_flip, Nat.eqb_refl; reflexivity|]. split; [|split].
  - rewrite F2. f_equal. apply N2Nat.inj. rewrite Fe2, Fe, flip_flip. reflexivity.
  - intros k Hk HN. destruct (C36_basis_bits s k Hs Hk) as (-> & _). destruct (C36_basis_bits s' k Fl Hk) as (-> & _). destruct (C36_basis_bits x k Hx Hk) as (-> & _).
    rewrite Ev, Fe, bit_flip. apply Nat.eqb_neq in HN as HN'. rewrite HN', bit_upd_other by exact HN. split; reflexivity.
  - intros n Hn Hxn. assert (HC : forall y, (y < 2 ^ N.of_nat n)%N <-> N.to_nat y < 2 ^ n).
    { intros y. assert (E : N.to_nat (2 ^ N.of_nat n) = 2 ^ n) by (rewrite N2Nat.inj_pow, Nat2N.id; reflexivity). rewrite <- E. rewrite N.compare_lt_iff || idtac. split; [apply Nat.compare_lt_iff || idtac; intros H; apply Nat.compare_lt_iff; rewrite <- N2Nat.inj_compare; exact H|].
      intros H. apply Nat.compare_lt_iff in H. rewrite <- N2Nat.inj_compare in H. exact H. }
    apply HC in Hxn. split; apply HC; [rewrite Ev; apply upd_lt; assumption|rewrite Fe; apply flip_lt; assumption].
Qed.
Print Assumptions C36_get_set_flip.
(** str(n) shows the bits 0 .. n-1 from left to right *)
Theorem C36_str : forall state n, (state < 2 ^ 64)%N -> n <= 64 -> qb_str state n = Ok (map (bit (N.to_nat state)) (seq 0 n)).
Proof.
  intros x n Hx Hn. unfold qb_str. enough (G : forall k s acc, s + k <= 64 -> foreach (seq s k) (fun i s => do b <- qb_get_bit x i; Ok (s ++ [b])%list) acc = Ok (acc ++ map (bit (N.to_nat x)) (seq s k))%list) by (rewrite G by lia; reflexivity).
  induction k as [|k IH]; intros s acc Hk; cbn [seq foreach map]; [rewrite app_nil_r; reflexivity|]. destruct (C36_basis_bits x s Hx ltac:(lia)) as (-> & _). cbn [bind]. rewrite IH by lia. rewrite <- app_assoc. reflexivity.
Qed.
Print Assumptions C36_str.
Example C36_nonvacuous : qb_set_bit 5 1 true = Ok 7%N /\ qb_flip_bit 5 63 = Ok (2 ^ 63 + 5)%N /\ qb_str 5 4 = Ok [true; false; true; false].
Proof. repeat split. Qed.
