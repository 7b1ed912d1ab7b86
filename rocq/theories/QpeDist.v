(** The distribution of the QPE readouts. *)
From Coq Require Import Reals String List Arith ZArith Bool Lia Lra Permutation FunctionalExtensionality.
From Verif Require Import CBase Result Bits Spec OpSpec GateModel MeasSpec ComputerModel SafeProofs GateProofs LibProofs CircuitModel PauliProofs OperatorModel MeasureModel MeasureProofs MeasReadout QftSpec PyModel PyApply ExpSpec ExpProofs PropOperator PropMeasure PropGrad QpeModel HadProofs PropQk QpeProofs FejerProofs.
From Verif Require TrotterProofs PropPy QftProofs PropAnsatz.
Import QftProofs.
Import TrotterProofs.
Import ListNotations.
Local Open Scope nat_scope.

Lemma Rsum_ext {A} (f g : A -> R) l : (forall x, In x l -> f x = g x) -> Rsum f l = Rsum g l.
Proof. intros H. induction l as [|x l IH]; [reflexivity|]. rewrite !Rsum_cons, (H x (or_introl eq_refl)), IH by (intros; apply H; now right). reflexivity. Qed.
Lemma Rsum_perm {A} (f : A -> R) l l' : Permutation l l' -> Rsum f l = Rsum f l'.
Proof. induction 1; rewrite ?Rsum_cons; try lra. Qed.
Lemma Rsum_map {A B} (f : B -> R) (h : A -> B) l : Rsum f (map h l) = Rsum (fun x => f (h x)) l.
Proof. induction l as [|x l IH]; [reflexivity|]. cbn [map]. rewrite !Rsum_cons, IH. reflexivity. Qed.
Lemma Rsum_flat {A B} (f : B -> R) (h : A -> list B) l : Rsum f (flat_map h l) = Rsum (fun x => Rsum f (h x)) l.
Proof. induction l as [|x l IH]; [reflexivity|]. cbn [flat_map]. rewrite Rsum_app, Rsum_cons, IH. reflexivity. Qed.
Lemma Rsum_scale {A} c (f : A -> R) l : Rsum (fun x => (c * f x)%R) l = (c * Rsum f l)%R.
Proof. induction l as [|x l IH]; [cbn; ring|]. rewrite !Rsum_cons, IH. ring. Qed.
Lemma Rsum_add {A} (f g : A -> R) l : Rsum (fun x => (f x + g x)%R) l = (Rsum f l + Rsum g l)%R.
Proof. induction l as [|x l IH]; [cbn; ring|]. rewrite !Rsum_cons, IH. ring. Qed.
Lemma Rsum_swap {A B} (f : A -> B -> R) l m : Rsum (fun x => Rsum (f x) m) l = Rsum (fun y => Rsum (fun x => f x y) l) m.
Proof.
  induction l as [|x l IH]; [cbn; induction m as [|y m IH]; [reflexivity|rewrite Rsum_cons, <- IH; cbn; ring]|]. rewrite Rsum_cons, IH, <- Rsum_add. reflexivity.
Qed.
Lemma Rsum_nonneg {A} (f : A -> R) l : (forall x, In x l -> 0 <= f x)%R -> (0 <= Rsum f l)%R.
Proof. intros H. induction l as [|x l IH]; [cbn; lra|]. rewrite Rsum_cons. pose proof (H x (or_introl eq_refl)). specialize (IH ltac:(intros; apply H; now right)). lra. Qed.
Lemma Re_Csum {A} (f : A -> C) l : Re (Csum f l) = Rsum (fun x => Re (f x)) l.
Proof. induction l as [|x l IH]; [reflexivity|]. rewrite Csum_cons, Rsum_cons, <- IH. reflexivity. Qed.

(** ---- blocks ---- *)
Lemma block_perm n N : Permutation (seq 0 (2 ^ (n + N))) (flat_map (fun k => map (fun s => put n N s k) (seq 0 (2 ^ n))) (seq 0 (2 ^ N))).
Proof.
  apply NoDup_Permutation_bis.
  - apply seq_NoDup.
  - rewrite seq_length. assert (E : forall l, length (flat_map (fun k => map (fun s => put n N s k) (seq 0 (2 ^ n))) l) = length l * 2 ^ n) by (induction l as [|x l IH]; [reflexivity|]; cbn [flat_map length]; rewrite app_length, IH, map_length, seq_length; lia). rewrite E, seq_length, Nat.pow_add_r. lia.
  - intros I HI. apply in_seq in HI. apply in_flat_map. exists (val n N I). split; [apply in_seq; pose proof (val_lt n N I); lia|]. apply in_map_iff. exists (put n N I 0). split; [rewrite put_put; apply put_val|]. apply in_seq. split; [lia|]. cbn [Nat.add]. apply lt_pow2_bits. intros q Hq. rewrite bit_put.
    destruct (Nat.leb_spec n q); [|lia]. destruct (Nat.ltb_spec q (n + N)); cbn [andb]; [unfold bit; apply Nat.bits_0|]. apply (proj1 (lt_pow2_bits (n + N) I)); lia.
Qed.
Lemma put0_low n N s : s < 2 ^ n -> put n N s 0 = s.
Proof.
  intros H. apply bits_ext. intros q. rewrite bit_put. destruct (Nat.leb_spec n q); [|reflexivity]. rewrite (proj1 (lt_pow2_bits n s) H q) by assumption. destruct (Nat.ltb q (n + N)); cbn [andb]; [unfold bit; apply Nat.bits_0|reflexivity].
Qed.
Lemma total_val q n N test : wf_computer q -> nqubit q = n + N ->
  total (probabilities q) (fun I => test (val n N I)) = Rsum (fun k => if test k then Rsum (fun s => Cnorm2 (psi_of q (put n N s k))) (seq 0 (2 ^ n)) else 0%R) (seq 0 (2 ^ N)).
Proof.
  intros W NQ. unfold total. assert (EL : length (probabilities q) = 2 ^ (n + N)). { unfold probabilities. rewrite map_length. destruct W as (W & _). rewrite W. unfold nbasis. now rewrite NQ. }
  rewrite EL. change (fold_right _ _ _) with (Rsum (fun k => if test (val n N k) then nth k (probabilities q) 0%R else 0%R) (seq 0 (2 ^ (n + N)))).
  rewrite (Rsum_perm _ _ _ (block_perm n N)), Rsum_flat. apply Rsum_ext. intros k Hk. apply in_seq in Hk. rewrite Rsum_map.
  destruct (test k) eqn:Et.
  - apply Rsum_ext. intros s _. rewrite val_put, Et by lia. apply probs_nth.
  - rewrite (Rsum_ext _ (fun s => (0 * 0)%R)); [rewrite Rsum_scale; ring|]. intros s _. rewrite val_put, Et by lia. ring.
Qed.

(** ---- superpositions of eigenstates ---- *)
Lemma eulers_add l : forall a b, eulers l (fun I => (a I + b I)%C) == fun I => (eulers l a I + eulers l b I)%C.
Proof.
  induction l as [|[y P] l IH]; intros a b; [apply seq_refl|]. cbn [eulers]. eapply seq_trans; [|apply IH]. apply eulers_ext. intros I. unfold euler, sadd, sscale. pose proof (circ_act_add P a b I) as E. unfold sadd in E. cbn beta in E. rewrite E. ring.
Qed.
Lemma evolve_sum m t ham idx (v : nat -> state) : evolve m t ham (fun I => Csum (fun i => v i I) idx) = fun I => Csum (fun i => evolve m t ham (v i) I) idx.
Proof.
  unfold evolve. induction idx as [|i idx IH].
  - assert (E : (fun I : nat => Csum (fun i => v i I) []) = szero) by (apply functional_extensionality; intros I; apply Csum_nil). rewrite E. apply seq_eq. eapply seq_trans; [apply eulers_zero_state|]. intros I. rewrite Csum_nil. reflexivity.
  - assert (E : (fun I : nat => Csum (fun i0 => v i0 I) (i :: idx)) = fun I => (v i I + Csum (fun i0 => v i0 I) idx)%C) by (apply functional_extensionality; intros I; exact (Csum_cons (fun i0 => v i0 I) i idx)). rewrite E. apply seq_eq. eapply seq_trans; [apply eulers_add|]. intros I. rewrite IH, Csum_cons. reflexivity.
Qed.
Lemma evolve_scale m t ham c psi : evolve m t ham (sscale c psi) = sscale c (evolve m t ham psi).
Proof. apply seq_eq, eulers_scale. Qed.
Definition eigen (o : qpe_options) (t : R) (phi : R) (v : state) : Prop :=
  exp_product (PropPy.trotter_factors (mkC 0 (- t)) (qp_trotter o) (qp_ham o)) v (sscale (Ccis (2 * PI * phi)) v).
Lemma eigen_evolve o t phi v : Hamiltonian (qp_nqb o) (qp_ham o) -> eigen o t phi v -> evolve (qp_trotter o) t (qp_ham o) v = sscale (Ccis (2 * PI * phi)) v.
Proof. intros HH HE. apply seq_eq. exact (PropAnsatz.exp_product_unique _ _ _ _ (evolve_product _ _ t _ v HH) HE). Qed.
Lemma wave_sum N o t d phi v : Hamiltonian (qp_nqb o) (qp_ham o) -> prepared (qp_Uprep o) == (fun I => Csum (fun i => v i I) (seq 0 d)) -> (forall i, i < d -> eigen o t (phi i) (v i)) ->
  forall x, wave N o t x = fun I => Csum (fun i => (Ccis (2 * PI * (INR x * phi i)) * v i I)%C) (seq 0 d).
Proof.
  intros HH HP HE. unfold wave. induction x as [|x IH].
  - cbn [Nat.iter]. rewrite (seq_eq _ _ HP). apply functional_extensionality. intros I. apply Csum_ext. intros i _. cbn [INR]. replace (2 * PI * (0 * phi i))%R with 0%R by ring. rewrite Ccis_0. ring.
  - change (Nat.iter (S x) ?f ?y) with (f (Nat.iter x f y)). rewrite IH. rewrite (evolve_sum _ _ _ (seq 0 d) (fun i => sscale (Ccis (2 * PI * (INR x * phi i))) (v i))). apply functional_extensionality. intros I. apply Csum_ext. intros i Hi. apply in_seq in Hi.
    rewrite evolve_scale, (eigen_evolve o t (phi i) (v i) HH (HE i ltac:(lia))). unfold sscale. rewrite S_INR. replace (2 * PI * ((INR x + 1) * phi i))%R with (2 * PI * (INR x * phi i) + 2 * PI * phi i)%R by ring. rewrite Ccis_add. ring.
Qed.
Lemma pow2_INR N : INR (2 ^ N) = (2 ^ N)%R.
Proof. rewrite pow_INR. reflexivity. Qed.
Lemma final_sum o t N q d phi v : Hamiltonian (qp_nqb o) (qp_ham o) -> prepared (qp_Uprep o) == (fun I => Csum (fun i => v i I) (seq 0 d)) -> (forall i, i < d -> eigen o t (phi i) (v i)) ->
  (forall I, psi_of q I = (RtoC (/ 2 ^ N) * Csum (fun x => Ccis (- (2 * PI * (INR x * INR (val (qp_nqb o) N I)) / 2 ^ N)) * wave N o t x (put (qp_nqb o) N I 0)) (seq 0 (2 ^ N)))%C) ->
  forall I, psi_of q I = Csum (fun i => (fejer (2 ^ N) (phi i - INR (val (qp_nqb o) N I) / INR (2 ^ N)) * v i (put (qp_nqb o) N I 0))%C) (seq 0 d).
Proof.
  intros HH HP HE HF I. rewrite HF. rewrite (Csum_ext _ (fun x => Csum (fun i => (Ccis (2 * PI * (INR x * (phi i - INR (val (qp_nqb o) N I) / INR (2 ^ N)))) * v i (put (qp_nqb o) N I 0))%C) (seq 0 d))).
  - rewrite Csum_swap, <- Csum_mul_l. apply Csum_ext. intros i _. unfold fejer. rewrite pow2_INR. rewrite Csum_mul_r. ring.
  - intros x _. rewrite (wave_sum N o t d phi v HH HP HE), <- Csum_mul_l. apply Csum_ext. intros i _. rewrite pow2_INR. replace (2 * PI * (INR x * (phi i - INR (val (qp_nqb o) N I) / 2 ^ N)))%R with (- (2 * PI * (INR x * INR (val (qp_nqb o) N I)) / 2 ^ N) + 2 * PI * (INR x * phi i))%R by (field; apply pow_nonzero; lra). rewrite Ccis_add. ring.
Qed.
Lemma orth_norm n d (a : nat -> C) (v : nat -> state) : (forall i j, i < d -> j < d -> i <> j -> inner n (v i) (v j) = C0) ->
  Rsum (fun s => Cnorm2 (Csum (fun i => (a i * v i s)%C) (seq 0 d))) (seq 0 (2 ^ n)) = Rsum (fun i => (Cnorm2 (a i) * born n (v i))%R) (seq 0 d).
Proof.
  intros HO. assert (E : Csum (fun s => RtoC (Cnorm2 (Csum (fun i => (a i * v i s)%C) (seq 0 d)))) (seq 0 (2 ^ n)) = Csum (fun i => (RtoC (Cnorm2 (a i)) * inner n (v i) (v i))%C) (seq 0 d)).
  { rewrite (Csum_ext _ (fun s => Csum (fun i => Csum (fun j => (Cconj (a i) * a j * (Cconj (v i s) * v j s))%C) (seq 0 d)) (seq 0 d))).
    - rewrite Csum_swap. apply Csum_ext. intros i Hi. apply in_seq in Hi. rewrite Csum_swap. rewrite (Csum_ext _ (fun j => ((if Nat.eqb j i then C1 else C0) * (Cconj (a i) * a j * inner n (v i) (v j)))%C)).
      + rewrite Csum_pick by lia. rewrite Cmul_conj. reflexivity.
      + intros j Hj. apply in_seq in Hj. rewrite Csum_mul_l. change (Csum (fun s => (Cconj (v i s) * v j s)%C) (seq 0 (2 ^ n))) with (inner n (v i) (v j)). destruct (Nat.eqb_spec j i) as [->|Nj]; [ring|]. rewrite (HO i j) by lia. ring.
    - intros s _. rewrite <- Cmul_conj, Csum_conj, <- Csum_mul_r. apply Csum_ext. intros i _. rewrite <- Csum_mul_l. apply Csum_ext. intros j _. apply C_ext; cbn; ring. }
  apply (f_equal Re) in E. rewrite !Re_Csum in E. etransitivity; [exact E|]. apply Rsum_ext. intros i _. unfold born. cbn. ring.
Qed.
Definition response (N : nat) (phi : R) (test : nat -> bool) : R := Rsum (fun k => if test k then Cnorm2 (fejer (2 ^ N) (phi - INR k / INR (2 ^ N))) else 0%R) (seq 0 (2 ^ N)).
Lemma distribution o N q d phi v test : wf_computer q -> nqubit q = qp_nqb o + N ->
  (forall i j, i < d -> j < d -> i <> j -> inner (qp_nqb o) (v i) (v j) = C0) ->
  (forall I, psi_of q I = Csum (fun i => (fejer (2 ^ N) (phi i - INR (val (qp_nqb o) N I) / INR (2 ^ N)) * v i (put (qp_nqb o) N I 0))%C) (seq 0 d)) ->
  total (probabilities q) (fun I => test (val (qp_nqb o) N I)) = Rsum (fun i => (born (qp_nqb o) (v i) * response N (phi i) test)%R) (seq 0 d).
Proof.
  intros W NQ HO HF. set (n := qp_nqb o) in *. rewrite (total_val q n N test W NQ). unfold response.
  rewrite (Rsum_ext _ (fun k => Rsum (fun i => (born n (v i) * (if test k then Cnorm2 (fejer (2 ^ N) (phi i - INR k / INR (2 ^ N))) else 0))%R) (seq 0 d))).
  - rewrite Rsum_swap. apply Rsum_ext. intros i _. apply Rsum_scale.
  - intros k Hk. apply in_seq in Hk. destruct (test k).
    + rewrite (Rsum_ext _ (fun s => Cnorm2 (Csum (fun i => (fejer (2 ^ N) (phi i - INR k / INR (2 ^ N)) * v i s)%C) (seq 0 d)))).
      * rewrite (orth_norm n d (fun i => fejer (2 ^ N) (phi i - INR k / INR (2 ^ N))) v HO). apply Rsum_ext. intros i _. ring.
      * intros s Hs. apply in_seq in Hs. rewrite HF. rewrite val_put, put_put, put0_low by lia. reflexivity.
    + rewrite (Rsum_ext _ (fun i => (0 * 0)%R)) by (intros; ring). rewrite Rsum_scale. ring.
Qed.

(** ---- the guarantees ---- *)
Lemma response_nonneg N phi test : (0 <= response N phi test)%R.
Proof. apply Rsum_nonneg. intros k _. destruct (test k); [apply Cnorm2_nonneg|lra]. Qed.
Lemma response_all N phi test : (response N phi test + response N phi (fun k => negb (test k)) = 1)%R.
Proof.
  unfold response. rewrite <- Rsum_add. pose proof (fejer_norm_C (2 ^ N) phi) as E. assert (H1 : 1 <= 2 ^ N) by (apply Nat.neq_0_lt_0, Nat.pow_nonzero; lia). specialize (E H1). apply (f_equal Re) in E. rewrite Re_Csum in E. etransitivity; [|exact E].
  apply Rsum_ext. intros k _. cbn [Re RtoC]. destruct (test k); cbn [negb]; ring.
Qed.
Lemma zs_seq g M : zs g 0 M = Rsum (fun k => g (Z.of_nat k)) (seq 0 M).
Proof. induction M as [|M IH]; [reflexivity|]. cbn [zs]. rewrite IH, seq_S, Rsum_app, Rsum_cons. cbn [Nat.add Rsum fold_right Z.add]. rewrite Z.add_0_l || idtac. unfold Rsum. cbn [fold_right]. lra. Qed.
Lemma response_success prec e phi test : 1 <= e ->
  (forall k, k < 2 ^ (prec + e) -> (exists z : Z, Rabs (phi - INR k / 2 ^ (prec + e) + IZR z) <= / 2 ^ prec)%R -> test k = true) ->
  (1 - 1 / (2 * 2 ^ e - 1) <= response (prec + e) phi test)%R.
Proof.
  intros He HT. pose proof (response_all (prec + e) phi test) as EA. set (N := prec + e) in *.
  assert (HN : 2 ^ N = 2 * 2 ^ (N - 1)) by (rewrite <- (Nat.pow_succ_r 2 (N - 1)) by lia; f_equal; lia).
  assert (HI : (0 < 2 ^ N)%R) by (apply pow_lt; lra). assert (HZ : (0 < Z.of_nat (2 ^ N))%Z) by (pose proof (Nat.pow_nonzero 2 N); lia).
  enough (response N phi (fun k => negb (test k)) <= 1 / (2 * 2 ^ e - 1))%R by lra.
  set (bad := fun z : Z => negb (test (Z.to_nat (z mod Z.of_nat (2 ^ N))))).
  assert (E : response N phi (fun k => negb (test k)) = zs (fun z => if bad z then Cnorm2 (fejer (2 * 2 ^ (N - 1)) (phi - IZR z / INR (2 * 2 ^ (N - 1)))) else 0%R) 0 (2 * 2 ^ (N - 1))).
  { rewrite <- HN, zs_seq. unfold response. apply Rsum_ext. intros k Hk. apply in_seq in Hk. unfold bad. rewrite Z.mod_small, Nat2Z.id, INR_IZR_INZ by lia. reflexivity. }
  rewrite E, <- pow2_INR. apply (tail_sum (2 ^ (N - 1)) (2 ^ e) phi bad).
  - apply Nat.neq_0_lt_0, Nat.pow_nonzero. lia.
  - apply Nat.neq_0_lt_0, Nat.pow_nonzero. lia.
  - intros z. rewrite <- HN. unfold bad. replace (z + Z.of_nat (2 ^ N))%Z with (z + 1 * Z.of_nat (2 ^ N))%Z by ring. rewrite Z_mod_plus_full. reflexivity.
  - intros z w HB. rewrite <- HN. unfold bad in HB. set (k := Z.to_nat (z mod Z.of_nat (2 ^ N))) in *. pose proof (Z.mod_pos_bound z _ HZ) as HK. destruct (Rlt_le_dec (INR (2 ^ e) / INR (2 ^ N)) (Rabs (phi - IZR z / INR (2 ^ N) + IZR w))) as [L|L]; [exact L|exfalso].
    rewrite HT in HB; [discriminate|lia|]. exists (w - z / Z.of_nat (2 ^ N))%Z. rewrite !pow2_INR in L. 
    replace (phi - INR k / 2 ^ N + IZR (w - z / Z.of_nat (2 ^ N)))%R with (phi - IZR z / 2 ^ N + IZR w)%R.
    + eapply Rle_trans; [exact L|]. right. unfold N. rewrite pow_add. field. split; apply pow_nonzero; lra.
    + unfold k. rewrite INR_IZR_INZ, Z2Nat.id by lia. rewrite minus_IZR. rewrite (Z.div_mod z (Z.of_nat (2 ^ N))) at 1 by lia. rewrite plus_IZR, mult_IZR, <- INR_IZR_INZ, pow2_INR. field. apply pow_nonzero. lra.
Qed.
Lemma ancillas p prec : (p < 1)%R -> exists e, n_ancilla p prec = Ok (prec + e) /\ 1 <= e /\ (2 + 1 / (1 - p) < 2 * 2 ^ e)%R /\ (2 ^ e <= 2 + 1 / (1 - p))%R.
Proof.
  intros Hp. unfold n_ancilla. cbv zeta. assert (HR : Rltb 0 (1 - p) = true) by (destruct (Rltb_spec 0 (1 - p)); [reflexivity|lra]). rewrite HR. eexists. split; [reflexivity|]. set (x := (2 + 1 / (1 - p))%R).
  assert (Hx : (2 <= x)%R). { unfold x. assert (0 < 1 / (1 - p))%R by (unfold Rdiv; rewrite Rmult_1_l; apply Rinv_0_lt_compat; lra). lra. }
  assert (L2 : (0 < ln 2)%R) by (rewrite <- ln_1; apply ln_increasing; lra). set (r := (ln x / ln 2)%R). assert (Er : x = exp (r * ln 2)) by (unfold r; replace (ln x / ln 2 * ln 2)%R with (ln x) by (field; lra); symmetry; apply exp_ln; lra).
  assert (Hr : (1 <= r)%R). { unfold r. apply (Rmult_le_reg_r (ln 2)); [exact L2|]. replace (ln x / ln 2 * ln 2)%R with (ln x) by (field; lra). rewrite Rmult_1_l. destruct Hx as [Hx| <-]; [left; apply ln_increasing; lra|right; reflexivity]. }
  destruct (base_Int_part r) as (B1 & B2). assert (HZ : (1 <= Int_part r)%Z). { assert (IZR 0 < IZR (Int_part r))%R by lra. apply lt_IZR in H. lia. }
  assert (EI : INR (Z.to_nat (Int_part r)) = IZR (Int_part r)) by (rewrite INR_IZR_INZ, Z2Nat.id by lia; reflexivity).
  assert (HP : forall k : nat, (2 ^ k)%R = exp (INR k * ln 2)) by (intros k; rewrite <- Rpower_pow by lra; reflexivity).
  split; [lia|]. change (2 * 2 ^ Z.to_nat (Int_part r))%R with (2 ^ S (Z.to_nat (Int_part r)))%R. rewrite !HP, Er, S_INR, EI. split.
  - apply exp_increasing, Rmult_lt_compat_r; lra.
  - destruct (Req_dec (IZR (Int_part r)) r) as [-> |Ne]; [lra|]. left. apply exp_increasing, Rmult_lt_compat_r; lra.
Qed.
