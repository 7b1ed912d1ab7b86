(** Pauli gates acting on the sector states. *)
From Coq Require Import Reals String List Arith Lia Bool Lra Permutation Sorted ZArith.
From Verif Require Import CBase Result Bits Spec GateModel OpSpec ComputerModel SafeProofs GateProofs LibProofs CircuitModel PauliProofs OperatorModel OperatorProofs PauliIdx
  TaperModel TaperSpec.
Import ListNotations.
Local Open Scope nat_scope.

Lemma drop_bit_spec p I k : bit (drop_bit p I) k = if k <? p then bit I k else bit I (S k).
Proof.
  unfold drop_bit, bit. assert (HP : 2 ^ p <> 0) by (apply Nat.pow_nonzero; lia). pose proof (Nat.mod_upper_bound I (2 ^ p) HP) as HM.
  destruct (Nat.ltb_spec k p) as [H|H].
  - rewrite <- (Nat.mod_pow2_bits_low _ p k H). rewrite Nat.mul_comm, Nat.mod_add by exact HP. rewrite Nat.mod_mod by exact HP. apply Nat.mod_pow2_bits_low, H.
  - replace k with (k - p + p) at 1 by lia. rewrite <- Nat.div_pow2_bits. rewrite Nat.mul_comm, Nat.div_add by exact HP. rewrite Nat.div_small by exact HM. cbn [Nat.add]. rewrite Nat.div_pow2_bits. f_equal. lia.
Qed.
Definition under (q t : nat) : nat := if t <? q then t else t - 1.
Lemma drop_flip_same q I : drop_bit q (flip I q) = drop_bit q I.
Proof. apply bits_ext. intros k. rewrite !drop_bit_spec, !bit_flip. destruct (Nat.ltb_spec k q), (Nat.eqb_spec k q), (Nat.eqb_spec (S k) q); try lia; reflexivity. Qed.
Lemma drop_flip q t I : t <> q -> drop_bit q (flip I t) = flip (drop_bit q I) (under q t).
Proof.
  intros N. unfold under. apply bits_ext. intros k. rewrite drop_bit_spec, !bit_flip, drop_bit_spec. destruct (Nat.ltb_spec t q), (Nat.ltb_spec k q), (Nat.eqb_spec k t), (Nat.eqb_spec (S k) t); try lia;
    try (destruct (Nat.eqb_spec k (t - 1)); try lia; reflexivity); reflexivity.
Qed.
Lemma bit_drop q t I : t <> q -> bit (drop_bit q I) (under q t) = bit I t.
Proof. intros N. unfold under. rewrite drop_bit_spec. destruct (Nat.ltb_spec t q); [destruct (Nat.ltb_spec t q); [reflexivity|lia]|]. destruct (Nat.ltb_spec (t - 1) q); [lia|]. f_equal. lia. Qed.

Lemma sector_ext tq : forall s a b, a == b -> sector tq s a == sector tq s b.
Proof. induction tq as [|q tq IH]; intros [|z s] a b H; try exact H. intros J. cbn [sector]. rewrite (IH s a b H). reflexivity. Qed.
Lemma sector_scale tq : forall s c a, sector tq s (sscale c a) == sscale c (sector tq s a).
Proof. induction tq as [|q tq IH]; intros [|z s] c a; try apply seq_refl. intros J. cbn [sector]. rewrite (IH s c a _). unfold sscale. cbn [sector]. ring. Qed.
Lemma sector_add tq : forall s a b, sector tq s (sadd a b) == sadd (sector tq s a) (sector tq s b).
Proof. induction tq as [|q tq IH]; intros [|z s] a b; try apply seq_refl. intros J. cbn [sector]. rewrite (IH s a b _). unfold sadd. cbn [sector]. ring. Qed.
Lemma sector_zero tq : forall s, sector tq s szero == szero.
Proof. induction tq as [|q tq IH]; intros [|z s]; try apply seq_refl. intros J. cbn [sector]. rewrite (IH s _). unfold szero. ring. Qed.

Lemma pph_ext l t t' I I' : bit I t = bit I' t' -> pph l t I = pph l t' I'.
Proof. intros H. unfold pph. rewrite H. reflexivity. Qed.
Lemma pidx_bit l t I k : k <> t -> bit (pidx l t I) k = bit I k.
Proof. intros N. unfold pidx. destruct (_ || _); [|reflexivity]. rewrite bit_flip. destruct (Nat.eqb_spec k t); [contradiction|reflexivity]. Qed.
Lemma pidx_drop l q t I : t <> q -> drop_bit q (pidx l t I) = pidx l (under q t) (drop_bit q I).
Proof. intros N. unfold pidx. destruct (_ || _); [apply drop_flip, N|reflexivity]. Qed.

(** a gate on a qubit that stays *)
Lemma pauli_other l tq : is_pauli_label l = true -> forall s t phi, StronglySorted gt tq -> length s = length tq -> ~ In t tq -> forall I,
  pact l t (sector tq s phi) I = sector tq s (pact l (t - length (filter (fun q => q <? t) tq)) phi) I.
Proof.
  intros HL. induction tq as [|q tq IH]; intros [|z s] t phi HS HLen Ht I; try discriminate.
  - cbn [sector filter length]. rewrite Nat.sub_0_r. reflexivity.
  - inversion HS; subst. cbn [sector]. assert (N : t <> q) by (intros ->; apply Ht; left; reflexivity). assert (Ht' : ~ In t tq) by (intros H; apply Ht; right; exact H).
    rewrite Forall_forall in H2. rewrite (pact_idx l t _ I HL). rewrite pidx_bit by auto. rewrite (pidx_drop l q t I N).
    assert (HU : ~ In (under q t) tq).
    { unfold under. destruct (Nat.ltb_spec t q); [exact Ht'|]. intros HI. specialize (H2 _ HI). unfold gt in H2. lia. }
    assert (EC : t - length (filter (fun q0 => q0 <? t) (q :: tq)) = under q t - length (filter (fun q0 => q0 <? under q t) tq)).
    { unfold under. cbn [filter]. destruct (Nat.ltb_spec t q) as [H|H].
      - destruct (Nat.ltb_spec q t); [lia|]. reflexivity.
      - destruct (Nat.ltb_spec q t); [|lia]. cbn [length].
        assert (EF : forall u, q <= u -> filter (fun q0 => q0 <? u) tq = tq). { intros u Hu. clear - H2 Hu. induction tq as [|a r IHr]; [reflexivity|]. cbn [filter]. pose proof (H2 a (or_introl eq_refl)) as Ha. unfold gt in Ha. rewrite (proj2 (Nat.ltb_lt a u)) by lia. f_equal. apply IHr. intros x Hx. apply H2. right; exact Hx. }
        rewrite !EF by lia. lia. }
    rewrite EC, <- (IH s (under q t) phi H1) by (cbn in HLen; (lia || assumption)). rewrite (pact_idx l (under q t) _ _ HL). rewrite (pph_ext l t (under q t) I (drop_bit q I)) by (symmetry; apply bit_drop, N). ring.
Qed.
(** sigma_x on a tapered qubit *)
Lemma pauli_tapered tq : forall s i phi, StronglySorted gt tq -> length s = length tq -> Forall (fun z => z = 1%Z \/ z = (-1)%Z) s -> i < length tq -> forall I,
  pact "X" (nth i tq 0) (sector tq s phi) I = (RtoC (IZR (nth i s 0%Z)) * sector tq s phi I)%C.
Proof.
  induction tq as [|q tq IH]; intros [|z s] i phi HS HLen HZ Hi I; try discriminate; cbn [length] in Hi; [lia|].
  inversion HS; subst. inversion HZ; subst. rewrite Forall_forall in H2. cbn [sector]. rewrite (pact_idx "X" _ _ I eq_refl). change (pidx "X" (nth i (q :: tq) 0) I) with (flip I (nth i (q :: tq) 0)).
  assert (EP : pph "X" (nth i (q :: tq) 0) I = C1) by reflexivity. rewrite EP. destruct i as [|i]; cbn [nth].
  - rewrite bit_flip, Nat.eqb_refl, drop_flip_same. destruct (bit I q); cbn [negb]; [|ring]. destruct H3 as [-> | ->]; apply C_ext; cbn; ring.
  - assert (Hq : nth i tq 0 < q) by (apply H2, nth_In; lia). rewrite bit_flip. destruct (Nat.eqb_spec q (nth i tq 0)); [lia|].
    rewrite drop_flip by lia. replace (under q (nth i tq 0)) with (nth i tq 0) by (unfold under; destruct (Nat.ltb_spec (nth i tq 0) q); lia).
    assert (E := IH s i phi H1 ltac:(cbn in HLen; lia) H4 ltac:(lia) (drop_bit q I)). rewrite (pact_idx "X" _ _ _ eq_refl) in E. assert (EP' : pph "X" (nth i tq 0) (drop_bit q I) = C1) by reflexivity. rewrite EP' in E.
    change (pidx "X" (nth i tq 0) (drop_bit q I)) with (flip (drop_bit q I) (nth i tq 0)) in E. rewrite Cmul_1_l in E. rewrite E. ring.
Qed.
