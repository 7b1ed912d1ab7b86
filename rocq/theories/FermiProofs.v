(** Adjoints of ladder operators; excitation operators on determinants. *)
From Coq Require Import Reals String List Arith NArith ZArith Bool Lia Lra Permutation Sorted.
From Verif Require Import CBase Result Bits Spec SQSpec GateModel LibProofs SQModel SQPhase SQProofs OperatorModel SQPoolSpec SQPoolModel SQPoolProofs SQPoolOps.
Import ListNotations.
Local Open Scope C_scope.

Lemma occ_bit D p : bit (N.to_nat D) p = occ D p.
Proof.
  unfold bit, occ. revert D. induction p as [|p IH]; intros D.
  - cbn [N.of_nat]. rewrite Nat.bit0_odd. destruct D as [|d]; [reflexivity|]. rewrite N.bit0_odd. destruct d; cbn [N.odd N.to_nat].
    + rewrite Pos2Nat.inj_xI. rewrite Nat.odd_succ, Nat.even_mul. reflexivity.
    + rewrite Pos2Nat.inj_xO. rewrite Nat.odd_mul. reflexivity.
    + reflexivity.
  - rewrite Nat2N.inj_succ. rewrite N.testbit_succ_r_div2 by lia. rewrite <- IH, N2Nat.inj_div2. reflexivity.
Qed.
(** ---- adjoints ---- *)
Definition sdiag (p : nat) (psi : state) : state := fun I => sgn (odd_below I p) * psi I.
Definition raise_m : mat := fun i j => if andb (Nat.eqb i 1) (Nat.eqb j 0) then C1 else C0.
Lemma create_act1 p psi : create p psi == act1 raise_m p (sdiag p psi).
Proof.
  intros I. unfold create, act1, raise_m, sdiag. rewrite !odd_below_upd, Nat.ltb_irrefl. destruct (bit I p); cbn [b2n Nat.eqb andb]; ring.
Qed.
Lemma annihilate_act1 p psi : annihilate p psi == sdiag p (act1 (madj raise_m) p psi).
Proof.
  intros I. unfold annihilate, act1, madj, raise_m, sdiag. destruct (bit I p); cbn [b2n Nat.eqb andb].
  - replace (Cconj C0) with C0 by csolve. ring.
  - replace (Cconj C0) with C0 by csolve. replace (Cconj C1) with C1 by csolve. ring.
Qed.
Lemma inner_sdiag n p a b : inner n a (sdiag p b) = inner n (sdiag p a) b.
Proof. unfold inner, sdiag. apply Csum_ext. intros I _. rewrite Cconj_mul. replace (Cconj (sgn (odd_below I p))) with (sgn (odd_below I p)) by (destruct (odd_below I p); unfold sgn; csolve). ring. Qed.
Lemma inner_create n p a b : (p < n)%nat -> inner n a (create p b) = inner n (annihilate p a) b.
Proof.
  intros H. rewrite (inner_ext n a a _ _ (fun I => eq_refl) (create_act1 p b)). rewrite inner_act1 by exact H. rewrite inner_sdiag. apply inner_ext; [|intros I; reflexivity].
  intros I. rewrite (annihilate_act1 p a I). reflexivity.
Qed.
Lemma inner_conj n a b : inner n a b = Cconj (inner n b a).
Proof.
  unfold inner. rewrite Csum_conj. apply Csum_ext. intros I _. rewrite Cconj_mul, Cconj_invol. ring.
Qed.
Lemma inner_annihilate n p a b : (p < n)%nat -> inner n a (annihilate p b) = inner n (create p a) b.
Proof. intros H. rewrite (inner_conj n a), <- inner_create by exact H. symmetry. apply inner_conj. Qed.
Lemma fold_snoc {A B} (f : A -> B -> B) l x b : fold_right f b (l ++ [x]) = fold_right f (f x b) l.
Proof. apply fold_right_app. Qed.
Lemma inner_creates n l : forall a b, Forall (fun p => p < n)%nat l -> inner n a (fold_right create b l) = inner n (fold_right annihilate a (rev l)) b.
Proof.
  induction l as [|p l IH]; intros a b H; [reflexivity|]. inversion H; subst. cbn [fold_right rev]. rewrite inner_create by assumption. rewrite IH by assumption. rewrite fold_snoc. reflexivity.
Qed.
Lemma inner_annihilates n l : forall a b, Forall (fun p => p < n)%nat l -> inner n a (fold_right annihilate b l) = inner n (fold_right create a (rev l)) b.
Proof.
  induction l as [|p l IH]; intros a b H; [reflexivity|]. inversion H; subst. cbn [fold_right rev]. rewrite inner_annihilate by assumption. rewrite IH by assumption. rewrite fold_snoc. reflexivity.
Qed.
Lemma inner_ladder n cre ann a b : Forall (fun p => p < n)%nat cre -> Forall (fun p => p < n)%nat ann ->
  inner n a (ladder_act cre ann b) = inner n (ladder_act (rev ann) (rev cre) a) b.
Proof. intros H1 H2. unfold ladder_act. rewrite inner_creates by assumption. rewrite inner_annihilates by assumption. reflexivity. Qed.
Lemma ladder_rev cre ann psi : dsorted cre -> dsorted ann -> length cre = length ann -> ladder_act (rev ann) (rev cre) psi == ladder_act ann cre psi.
Proof.
  intros H1 H2 HL I. set (srt := fun (lt : nat -> nat -> bool) (l : list nat) => l) in *.
  rewrite !(ladder_word _ _ psi I). unfold word.
  assert (HR : forall d l phi J, dsorted l -> lads d (rev l) phi J = sgn (Nat.odd (Nat.div2 (length l * (length l - 1)))) * lads d l phi J).
  { clear. intros d l phi J HD. revert J. induction HD as [|x l HS IH HF]; intros J; [cbn; unfold sgn; ring|].
    cbn [rev]. pose proof (lads_antisym d phi J) as HA.
    pose proof (move_right (fun l => lads d l phi J) HA (rev l) [] x []) as HM. cbn [app] in HM. rewrite app_nil_r in HM. cbn beta in HM.
    assert (EX : lads d (rev l ++ [x]) phi J = spow (length l) * lads d (x :: rev l) phi J).
    { rewrite HM, rev_length. unfold spow. transitivity ((sgn (Nat.odd (length l)) * sgn (Nat.odd (length l))) * lads d (rev l ++ [x]) phi J); [rewrite sgn_sgn; ring|].
      destruct (Nat.odd (length l)); unfold sgn; ring. }
    rewrite EX. change (lads d (x :: rev l) phi J) with (lad d x (lads d (rev l) phi) J). change (lads d (x :: l) phi J) with (lad d x (lads d l phi) J).
    assert (EY : lad d x (lads d (rev l) phi) J = sgn (Nat.odd (Nat.div2 (length l * (length l - 1)))) * lad d x (lads d l phi) J).
    { rewrite (lad_ext d x _ (sscale (sgn (Nat.odd (Nat.div2 (length l * (length l - 1))))) (lads d l phi))) by (intros K; apply IH). apply lad_scale. }
    rewrite EY. cbn [length]. set (n := length l). replace (S n - 1)%nat with n by lia. rewrite !Nat.div2_div.
    assert (E : (S n * n)%nat = (n * (n - 1) + n * 2)%nat) by (destruct n; cbn; nia). rewrite E, Nat.div_add by lia. rewrite Nat.odd_add, sgn_xor. unfold spow. ring_simplify. destruct (Nat.odd n); unfold sgn; ring. }
  rewrite (HR true ann _ I H2). rewrite (lads_ext true ann _ (sscale (sgn (Nat.odd (Nat.div2 (length cre * (length cre - 1))))) (lads false cre psi))) by (intros J; apply HR, H1).
  rewrite (lads_scale true ann _ _ I). unfold sscale. rewrite HL.
  transitivity ((sgn (Nat.odd (Nat.div2 (length ann * (length ann - 1)))) * sgn (Nat.odd (Nat.div2 (length ann * (length ann - 1))))) * lads true ann (lads false cre psi) I); [ring|rewrite sgn_sgn; ring].
Qed.
Lemma inner_add_r n a b c : inner n a (sadd b c) = inner n a b + inner n a c.
Proof. unfold inner, sadd. rewrite <- Csum_add. apply Csum_ext. intros; ring. Qed.
Lemma inner_scale_r n a b k : inner n a (sscale k b) = k * inner n a b.
Proof. unfold inner, sscale. rewrite <- Csum_mul_l. apply Csum_ext. intros; ring. Qed.
Lemma inner_fermi n a o b : inner n a (fermi_act o b) = Csum (fun t => fcoef t * inner n a (ladder_act (fcre t) (fann t) b)) o.
Proof.
  unfold fermi_act, inner. transitivity (Csum (fun I => Csum (fun t => Cconj (a I) * (fcoef t * ladder_act (fcre t) (fann t) b I)) o) (seq 0 (2 ^ n))).
  - apply Csum_ext. intros I _. rewrite Csum_mul_l. reflexivity.
  - rewrite Csum_swap. apply Csum_ext. intros t _. rewrite <- Csum_mul_l. apply Csum_ext. intros; ring.
Qed.
Lemma fermi_perm o o' psi : Permutation o o' -> fermi_act o psi == fermi_act o' psi.
Proof. intros H I. apply Csum_perm, H. Qed.

(** ---- determinants ---- *)
Lemma annihilate_ket p J : bit J p = true -> annihilate p (ket J) == sscale (sgn (odd_below J p)) (ket (upd J p false)).
Proof.
  intros H I. unfold annihilate, sscale, ket. destruct (Nat.eqb_spec I (upd J p false)) as [->|N].
  - rewrite bit_upd_same, odd_below_upd, Nat.ltb_irrefl, upd_upd. rewrite (upd_id' J p true H), Nat.eqb_refl. ring.
  - destruct (bit I p) eqn:E; [ring|]. destruct (Nat.eqb_spec (upd I p true) J) as [e|n]; [|ring]. exfalso. apply N. rewrite <- e, upd_upd. symmetry. apply upd_id', E.
Qed.
Lemma create_ket p J : bit J p = false -> create p (ket J) == sscale (sgn (odd_below J p)) (ket (upd J p true)).
Proof.
  intros H I. unfold create, sscale, ket. destruct (Nat.eqb_spec I (upd J p true)) as [->|N].
  - rewrite bit_upd_same, odd_below_upd, Nat.ltb_irrefl, upd_upd. rewrite (upd_id' J p false H), Nat.eqb_refl. ring.
  - destruct (bit I p) eqn:E; [|ring]. destruct (Nat.eqb_spec (upd I p false) J) as [e|n]; [|ring]. exfalso. apply N. rewrite <- e, upd_upd. symmetry. apply upd_id', E.
Qed.
Definition sign (s : C) : Prop := s = C1 \/ s = - C1.
Lemma sign_sgn b : sign (sgn b).
Proof. destruct b; [right|left]; reflexivity. Qed.
Lemma sign_mul a b : sign a -> sign b -> sign (a * b).
Proof. intros [-> | ->] [-> | ->]; [left|right|right|left]; ring. Qed.
Lemma annihilate_ext p a b : a == b -> annihilate p a == annihilate p b.
Proof. intros H I. unfold annihilate. rewrite H. reflexivity. Qed.
Lemma create_ext p a b : a == b -> create p a == create p b.
Proof. intros H I. unfold create. rewrite H. reflexivity. Qed.
Lemma annihilate_scale p c a : annihilate p (sscale c a) == sscale c (annihilate p a).
Proof. intros I. unfold annihilate, sscale. destruct (bit I p); ring. Qed.
Lemma create_scale p c a : create p (sscale c a) == sscale c (create p a).
Proof. intros I. unfold create, sscale. destruct (bit I p); ring. Qed.
Lemma annihilates_ket l J : NoDup l -> (forall p, In p l -> bit J p = true) -> exists s K, sign s /\ fold_right annihilate (ket J) l == sscale s (ket K) /\
  forall p, bit K p = bit J p && negb (if in_dec Nat.eq_dec p l then true else false).
Proof.
  induction l as [|q l IH]; intros HN HB.
  - exists C1, J. split; [left; reflexivity|]. split; [intros I; unfold sscale; cbn [fold_right]; ring|]. intros p. cbn. rewrite andb_true_r. reflexivity.
  - apply NoDup_cons_iff in HN. destruct HN as [Hq HN]. destruct (IH HN (fun p H => HB p (or_intror H))) as (s & K & Hs & HE & HK).
    assert (Bq : bit K q = true) by (rewrite HK, HB by (left; reflexivity); destruct (in_dec Nat.eq_dec q l); [contradiction|reflexivity]).
    exists (s * sgn (odd_below K q)), (upd K q false). split; [apply sign_mul; [exact Hs|apply sign_sgn]|]. split.
    + intros I. cbn [fold_right]. rewrite (annihilate_ext q _ _ HE I), (annihilate_scale q s _ I). unfold sscale at 1. rewrite (annihilate_ket q K Bq I). unfold sscale. ring.
    + intros p. rewrite bit_upd, HK. destruct (Nat.eqb_spec p q) as [->|N].
      * destruct (in_dec Nat.eq_dec q (q :: l)) as [_|n]; [|exfalso; apply n; left; reflexivity]. rewrite andb_false_r. reflexivity.
      * destruct (in_dec Nat.eq_dec p l) as [i|i], (in_dec Nat.eq_dec p (q :: l)) as [j|j]; try reflexivity; [exfalso; apply j; right; exact i|destruct j; [congruence|contradiction]].
Qed.
Lemma creates_ket l J : NoDup l -> (forall p, In p l -> bit J p = false) -> exists s K, sign s /\ fold_right create (ket J) l == sscale s (ket K) /\
  forall p, bit K p = bit J p || (if in_dec Nat.eq_dec p l then true else false).
Proof.
  induction l as [|q l IH]; intros HN HB.
  - exists C1, J. split; [left; reflexivity|]. split; [intros I; unfold sscale; cbn [fold_right]; ring|]. intros p. cbn. rewrite orb_false_r. reflexivity.
  - apply NoDup_cons_iff in HN. destruct HN as [Hq HN]. destruct (IH HN (fun p H => HB p (or_intror H))) as (s & K & Hs & HE & HK).
    assert (Bq : bit K q = false) by (rewrite HK, HB by (left; reflexivity); destruct (in_dec Nat.eq_dec q l); [contradiction|reflexivity]).
    exists (s * sgn (odd_below K q)), (upd K q true). split; [apply sign_mul; [exact Hs|apply sign_sgn]|]. split.
    + intros I. cbn [fold_right]. rewrite (create_ext q _ _ HE I), (create_scale q s _ I). unfold sscale at 1. rewrite (create_ket q K Bq I). unfold sscale. ring.
    + intros p. rewrite bit_upd, HK. destruct (Nat.eqb_spec p q) as [->|N].
      * destruct (in_dec Nat.eq_dec q (q :: l)) as [_|n]; [|exfalso; apply n; left; reflexivity]. rewrite orb_true_r. reflexivity.
      * destruct (in_dec Nat.eq_dec p l) as [i|i], (in_dec Nat.eq_dec p (q :: l)) as [j|j]; try reflexivity; [exfalso; apply j; right; exact i|destruct j; [congruence|contradiction]].
Qed.
Lemma creates_ext l a b : a == b -> fold_right create a l == fold_right create b l.
Proof. intros H. induction l as [|p l IH]; [exact H|]. cbn. apply create_ext, IH. Qed.
Lemma creates_scale l c a : fold_right create (sscale c a) l == sscale c (fold_right create a l).
Proof. induction l as [|p l IH]; [intros I; reflexivity|]. intros I. cbn. rewrite (create_ext p _ _ IH I). apply create_scale. Qed.
Lemma annihilates_zero p l J : In p l -> bit J p = false -> fold_right annihilate (ket J) l == szero.
Proof.
  intros Hp HB. assert (H : forall psi, (forall I, bit I p = true -> psi I = C0) -> fold_right annihilate psi l == szero).
  { induction l as [|q l IH]; [destruct Hp|]. intros psi Hpsi I. cbn. destruct (in_dec Nat.eq_dec p l) as [i|i].
    - rewrite (annihilate_ext q _ _ (IH i psi Hpsi) I). unfold annihilate, szero. destruct (bit I q); ring.
    - destruct Hp as [->|Hp]; [|contradiction]. assert (HZ : forall I, bit I p = true -> fold_right annihilate psi l I = C0).
      { clear IH. induction l as [|r l IHl]; [exact Hpsi|]. intros K HK. cbn. unfold annihilate at 1. destruct (bit K r) eqn:Er; [reflexivity|]. rewrite IHl; [ring|intros H; apply i; right; exact H|].
        rewrite bit_upd. destruct (Nat.eqb_spec p r); [reflexivity|exact HK]. }
      unfold annihilate. destruct (bit I p) eqn:E; [reflexivity|]. rewrite HZ by apply bit_upd_same. unfold szero. ring. }
  apply H. intros I HI. unfold ket. destruct (Nat.eqb_spec I J); [subst; congruence|reflexivity].
Qed.
Lemma ladder_excites R D n : (R < 2 ^ N.of_nat n)%N -> (D < 2 ^ N.of_nat n)%N ->
  exists s, sign s /\ ladder_act (particles R D n) (holes R D n) (ket (N.to_nat R)) == sscale s (ket (N.to_nat D)).
Proof.
  intros HR HD. unfold ladder_act.
  destruct (annihilates_ket (holes R D n) (N.to_nat R)) as (s1 & K1 & Hs1 & HE1 & HK1); [apply dsorted_nodup, orbitals_sorted| |].
  { intros p Hp. apply orbitals_in in Hp. rewrite occ_bit. apply andb_true_iff with (2 := proj2 Hp) || (destruct Hp as [_ Hp]; apply andb_true_iff in Hp; apply Hp). }
  destruct (creates_ket (particles R D n) K1) as (s2 & K2 & Hs2 & HE2 & HK2); [apply dsorted_nodup, orbitals_sorted| |].
  { intros p Hp. apply orbitals_in in Hp. destruct Hp as [_ Hp]. apply andb_true_iff in Hp. destruct Hp as [_ Hp]. rewrite HK1, occ_bit. destruct (occ R p); [discriminate|reflexivity]. }
  exists (s1 * s2). split; [apply sign_mul; assumption|].
  assert (EK : K2 = N.to_nat D).
  { apply bits_ext. intros p. rewrite HK2, HK1, !occ_bit. destruct (in_dec Nat.eq_dec p (particles R D n)) as [i|i], (in_dec Nat.eq_dec p (holes R D n)) as [j|j].
    - apply orbitals_in in i, j. destruct (occ R p), (occ D p); cbn in *; destruct i, j; congruence.
    - apply orbitals_in in i. destruct i as [_ i]. destruct (occ D p); [rewrite orb_true_r; reflexivity|discriminate].
    - apply orbitals_in in j. destruct j as [_ j]. destruct (occ R p), (occ D p); cbn in *; congruence.
    - destruct (Nat.lt_ge_cases p n) as [L|L].
      + assert (i' : occ D p && negb (occ R p) = false) by (destruct (occ D p && negb (occ R p)) eqn:E; [exfalso; apply i, orbitals_in; auto|reflexivity]).
        assert (j' : occ R p && negb (occ D p) = false) by (destruct (occ R p && negb (occ D p)) eqn:E; [exfalso; apply j, orbitals_in; auto|reflexivity]).
        destruct (occ R p), (occ D p); cbn in *; congruence.
      + assert (HX : forall x, (x < 2 ^ N.of_nat n)%N -> occ x p = false).
        { intros x Hx. unfold occ. destruct (N.eq_dec x 0) as [->|n0]; [apply N.bits_0|]. apply N.bits_above_log2. apply N.log2_lt_pow2; [lia|]. eapply N.lt_le_trans; [exact Hx|]. apply N.pow_le_mono_r; lia. }
        rewrite !HX by assumption. reflexivity. }
  subst K2. intros I. rewrite (creates_ext _ _ _ HE1 I), (creates_scale _ s1 _ I). unfold sscale at 1. rewrite (HE2 I). unfold sscale. ring.
Qed.
