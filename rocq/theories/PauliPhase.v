(** Pauli strings as phase times permutation; operators that act as a real two-level generator. *)
From Coq Require Import Reals String List Arith Bool Lia Lra FunctionalExtensionality.
From Verif Require Import CBase Result Bits Spec OpSpec GateModel ComputerModel SafeProofs CircuitModel PauliProofs PauliIdx OperatorModel OperatorProofs PauliIndep ExpSpec ExpProofs CompactModel CompactAct TwoLevel.
Import ListNotations.
Local Open Scope C_scope.

Definition flipping (g : gate) : bool := (String.eqb (glabel g) "X" || String.eqb (glabel g) "Y")%bool.
(** the qubits a Pauli string flips *)
Definition xm (P : list gate) : list nat := map gtarget (filter flipping P).
(** its phase at the basis state I *)
Definition ph (P : list gate) (I : nat) : C := fold_right (fun g c => pph (glabel g) (gtarget g) I * c) C1 P.
Definition yodd (P : list gate) : bool := fold_right (fun g b => xorb (String.eqb (glabel g) "Y") b) false P.
Lemma xm_In P t : In t (xm P) -> In t (map gtarget P).
Proof. unfold xm. intros I. apply in_map_iff in I. destruct I as (g & <- & I). apply filter_In in I. apply in_map, I. Qed.
Lemma xm_NoDup P : NoDup (map gtarget P) -> NoDup (xm P).
Proof.
  unfold xm. induction P as [|g r IH]; intros N; [constructor|]. cbn [map filter] in *. inversion N as [|? ? N1 N2]; subst. destruct (flipping g); [|now apply IH]. cbn [map]. constructor; [|now apply IH].
  intros K. apply N1. change (In (gtarget g) (xm r)) in K. now apply xm_In.
Qed.
Lemma pph_bits s t I J : bit I t = bit J t -> pph s t I = pph s t J.
Proof. intros E. unfold pph. now rewrite E. Qed.
Lemma string_act P : Forall pauli_gate P -> NoDup (map gtarget P) -> forall psi I, circ_act P psi I = ph P I * psi (flips (xm P) I).
Proof.
  induction 1 as [|g r Hg _ IH]; intros N psi I; [cbn; ring|]. cbn [map] in N. inversion N as [|? ? N1 N2]; subst. rewrite circ_act_cons, (IH N2), (pauli_idx g _ _ Hg). cbn [ph fold_right]. fold (ph r I).
  assert (B : bit (flips (xm r) I) (gtarget g) = bit I (gtarget g)) by (rewrite bit_flips by (apply xm_NoDup, N2); rewrite (proj2 (mem_not _ _)); [reflexivity|]; intros K; now apply N1, xm_In).
  rewrite (pph_bits _ _ _ _ B). unfold pidx. change ((glabel g =? "X") || (glabel g =? "Y"))%string with (flipping g). destruct (flipping g) eqn:E.
  - replace (flip (flips (xm r) I) (gtarget g)) with (flips (gtarget g :: xm r) I). { unfold xm at 2. cbn [filter]. rewrite E. cbn [map]. change (map gtarget (filter flipping r)) with (xm r). ring. }
    apply bits_ext. intros k. rewrite bit_flip. rewrite (bit_flips (gtarget g :: xm r)) by (constructor; [intros K; now apply N1, xm_In|apply xm_NoDup, N2]). rewrite (bit_flips (xm r)) by (apply xm_NoDup, N2). rewrite mem_cons. destruct (Nat.eqb_spec k (gtarget g)) as [->|]; cbn [orb]; [|reflexivity].
    rewrite (proj2 (mem_not _ _)); [reflexivity|]. intros K; now apply N1, xm_In.
  - unfold xm at 2. cbn [filter]. rewrite E. change (map gtarget (filter flipping r)) with (xm r). ring.
Qed.
Lemma ph_kind P I : Forall pauli_gate P -> if yodd P then Re (ph P I) = 0%R else Im (ph P I) = 0%R.
Proof.
  induction 1 as [|g r Hg _ IH]; [reflexivity|]. cbn [yodd ph fold_right]. fold (yodd r) (ph r I). unfold pph. destruct (pauli_label_cases _ (proj1 Hg)) as [E|[E|E]]; rewrite E; cbn [String.eqb Ascii.eqb Bool.eqb xorb].
  - destruct (yodd r); cbn; rewrite IH; ring.
  - destruct (yodd r); cbn [xorb negb]; destruct (bit I (gtarget g)); cbn; rewrite IH; ring.
  - destruct (yodd r); destruct (bit I (gtarget g)); cbn; rewrite IH; ring.
Qed.
Lemma ph_conj P I J : Forall pauli_gate P -> (forall g, In g P -> bit J (gtarget g) = xorb (flipping g) (bit I (gtarget g))) -> ph P J = Cconj (ph P I).
Proof.
  induction 1 as [|g r Hg _ IH]; intros H; [cbn [ph fold_right]; now rewrite Cconj_C1|]. cbn [ph fold_right]. fold (ph r I) (ph r J). rewrite Cconj_mul, IH by (intros x Ix; apply H; now right). f_equal.
  specialize (H g (or_introl eq_refl)). unfold pph, flipping in *. destruct (pauli_label_cases _ (proj1 Hg)) as [E|[E|E]]; rewrite E in *; cbn [String.eqb Ascii.eqb Bool.eqb orb] in *; rewrite ?H.
  - now rewrite Cconj_C1.
  - destruct (bit I (gtarget g)); cbn [xorb negb]; apply C_ext; cbn; ring.
  - rewrite xorb_false_l. destruct (bit I (gtarget g)); apply C_ext; cbn; ring.
Qed.
Lemma ph_flips P I : Forall pauli_gate P -> NoDup (map gtarget P) -> ph P (flips (xm P) I) = Cconj (ph P I).
Proof.
  intros HP N. apply ph_conj; [exact HP|]. intros g Ig. rewrite bit_flips by (apply xm_NoDup, N).
  destruct (flipping g) eqn:E.
  - rewrite (proj2 (mem_In _ _)); [cbn; reflexivity|]. apply in_map, filter_In. split; assumption.
  - rewrite (proj2 (mem_not _ _)); [now rewrite xorb_false_l|]. intros K. unfold xm in K. apply in_map_iff in K. destruct K as (h & Eh & Ih). apply filter_In in Ih. destruct Ih as (Ih & Fh).
    assert (h = g); [|congruence]. clear - N Ih Ig Eh. induction P as [|x r IH]; [destruct Ig|]. cbn [map] in N. inversion N as [|? ? N1 N2]; subst. destruct Ih as [->|Ih], Ig as [->|Ig]; [reflexivity| | |now apply IH].
    + exfalso. apply N1. rewrite Eh. apply in_map, Ig.
    + exfalso. apply N1. rewrite <- Eh. apply in_map, Ih.
Qed.
Lemma ph_nonzero P I : Forall pauli_gate P -> Cabs (ph P I) = 1%R.
Proof. induction 1 as [|g r Hg _ IH]; [apply Cabs_C1|]. cbn [ph fold_right]. fold (ph r I). rewrite Cabs_mul, pph_abs, IH. ring. Qed.
(** which mask *)
Definition msk (l : list nat) : nat := flips l 0.
Lemma bit_msk l k : NoDup l -> bit (msk l) k = mem k l.
Proof. intros N. unfold msk. rewrite bit_flips by exact N. unfold bit. rewrite Nat.bits_0. destruct (mem k l); reflexivity. Qed.
Lemma msk_flips a b : NoDup a -> NoDup b -> msk a = msk b -> forall I, flips a I = flips b I.
Proof. intros Na Nb E I. apply bits_ext. intros k. rewrite !bit_flips by assumption. rewrite <- (bit_msk a k Na), <- (bit_msk b k Nb), E. reflexivity. Qed.
Lemma flips_msk a b I : NoDup a -> NoDup b -> flips a I = flips b I -> msk a = msk b.
Proof.
  intros Na Nb E. apply bits_ext. intros k. rewrite !bit_msk by assumption. apply (f_equal (fun J => bit J k)) in E. rewrite !bit_flips in E by assumption. destruct (mem k a), (mem k b), (bit I k); cbn in E; congruence.
Qed.
Lemma Csum_filter {A} (p : A -> bool) (f : A -> C) l : Csum f (filter p l) = Csum (fun x => if p x then f x else C0) l.
Proof. induction l as [|x r IH]; [reflexivity|]. cbn [filter]. rewrite (Csum_cons (fun x => if p x then f x else C0)). destruct (p x); [rewrite Csum_cons, IH; reflexivity | rewrite IH; ring]. Qed.
Lemma canonical_parts t : canonical_pauli t -> Forall pauli_gate t /\ NoDup (map gtarget t).
Proof. intros (H & I). split; [exact H|]. now apply increasing_nodup. Qed.

(** ---- operators that act as a real generator with one mask ---- *)
Section Struct.
  Variables (q : qop) (X : list nat) (k : nat -> R).
  Hypothesis HC : canonical_op q.
  Hypothesis HN : NoDup (map snd q).
  Hypothesis H0 : Forall (fun t => fst t <> C0) q.
  Hypothesis HX : NoDup X.
  Hypothesis Hk : odd_under (flips X) k.
  Hypothesis HA : forall psi I, op_act q psi I = gen (flips X) k psi I.
  Let parts t (Ht : In t q) : Forall pauli_gate (snd t) /\ NoDup (map gtarget (snd t)).
  Proof. apply canonical_parts. unfold canonical_op in HC. rewrite Forall_forall in HC. now apply HC. Qed.
  Lemma sub_zero (f : C * list gate -> bool) (w : C * list gate -> C) t : (forall psi I, Csum (fun t => w t * circ_act (snd t) psi I) (filter f q) = C0) -> In t q -> f t = true -> w t = C0.
  Proof.
    intros V Ht Ft. set (o := map (fun t => (w t, snd t)) (filter f q)).
    assert (Co : canonical_op o) by (unfold o, canonical_op in *; apply Forall_map; cbn [snd]; apply Forall_forall; intros x Ix; apply filter_In in Ix; rewrite Forall_forall in HC; apply HC, Ix).
    assert (No : NoDup (map snd o)).
    { unfold o. rewrite map_map. cbn [snd]. clear - HN. induction q as [|x r IH]; [constructor|]. cbn [filter map] in *. inversion HN as [|? ? N1 N2]; subst. destruct (f x); [|now apply IH]. cbn [map]. constructor; [|now apply IH].
      intros K. apply N1. apply in_map_iff in K. destruct K as (y & <- & Iy). apply filter_In in Iy. apply in_map, Iy. }
    assert (Vo : vanishes o) by (intros psi I; unfold o, op_act; rewrite Csum_map; cbn [fst snd]; apply V).
    pose proof (vanish_coeffs o Co No Vo) as Z. rewrite Forall_forall in Z. apply (Z (w t, snd t)). unfold o. apply (in_map (fun t => (w t, snd t))), filter_In. now split.
  Qed.
  Lemma one_mask t : In t q -> msk (xm (snd t)) = msk X.
  Proof.
    intros Ht. destruct (Nat.eq_dec (msk (xm (snd t))) (msk X)) as [E|N]; [exact E|]. exfalso. rewrite Forall_forall in H0. apply (H0 t Ht).
    apply (sub_zero (fun u => Nat.eqb (msk (xm (snd u))) (msk (xm (snd t)))) fst t); [|exact Ht|apply Nat.eqb_refl]. intros psi I.
    destruct (parts t Ht) as (Pt & Nt). set (J := flips (xm (snd t)) I).
    assert (Z : op_act q (ket J) I = C0).
    { rewrite HA. unfold gen, ket. replace (flips X I =? J) with false; [ring|]. symmetry. apply Nat.eqb_neq. intros E. apply N. symmetry. eapply flips_msk; [exact HX|apply xm_NoDup, Nt|exact E]. }
    unfold op_act in Z. rewrite Csum_filter. transitivity (Csum (fun u => fst u * circ_act (snd u) (ket J) I) q * psi J); [|rewrite Z; ring]. rewrite <- Csum_mul_r. apply Csum_ext. intros u Iu. destruct (parts u Iu) as (Pu & Nu). rewrite !(string_act (snd u) Pu Nu). unfold ket.
    destruct (Nat.eqb_spec (msk (xm (snd u))) (msk (xm (snd t)))) as [E|E].
    - replace (flips (xm (snd u)) I) with J by (symmetry; apply msk_flips; [apply xm_NoDup, Nu|apply xm_NoDup, Nt|exact E]). rewrite Nat.eqb_refl. ring.
    - replace (flips (xm (snd u)) I =? J) with false; [ring|]. symmetry. apply Nat.eqb_neq. intros K. apply E. eapply flips_msk; [apply xm_NoDup, Nu|apply xm_NoDup, Nt|exact K].
  Qed.
  Lemma same_flips t I : In t q -> flips (xm (snd t)) I = flips X I.
  Proof. intros Ht. destruct (parts t Ht) as (Pt & Nt). apply msk_flips; [apply xm_NoDup, Nt|exact HX|apply one_mask, Ht]. Qed.
  Lemma sum_phases I : Csum (fun t => fst t * ph (snd t) I) q = RtoC (k I).
  Proof.
    pose proof (HA (fun _ => C1) I) as E. unfold op_act, gen in E. transitivity (RtoC (k I) * C1); [|ring]. rewrite <- E. apply Csum_ext. intros t Ht. destruct (parts t Ht) as (Pt & Nt). rewrite (string_act _ Pt Nt). ring.
  Qed.
  Lemma all_imaginary t : In t q -> Re (fst t) = 0%R.
  Proof.
    intros Ht. assert (E : fst t + Cconj (fst t) = C0).
    { apply (sub_zero (fun _ => true) (fun t => fst t + Cconj (fst t)) t); [|exact Ht|reflexivity]. intros psi I.
      rewrite Csum_filter. transitivity ((Csum (fun t => fst t * ph (snd t) I) q + Cconj (Csum (fun t => fst t * ph (snd t) (flips X I)) q)) * psi (flips X I)).
      - rewrite Csum_conj, <- Csum_add, <- Csum_mul_r. apply Csum_ext. intros u Iu. destruct (parts u Iu) as (Pu & Nu). rewrite (string_act _ Pu Nu), (same_flips u I Iu), Cconj_mul. rewrite <- (same_flips u I Iu) at 2. rewrite (ph_flips _ _ Pu Nu), Cconj_invol. ring.
      - rewrite !sum_phases, Hk. apply C_ext; cbn; ring. }
    apply (f_equal Re) in E. cbn in E. lra.
  Qed.
  Lemma all_odd t : In t q -> yodd (snd t) = true.
  Proof.
    intros Ht. destruct (yodd (snd t)) eqn:Ey; [reflexivity|]. exfalso. pose proof H0 as H0'. rewrite Forall_forall in H0'. apply (H0' t Ht). apply (sub_zero (fun u => negb (yodd (snd u))) fst t); [|exact Ht|now rewrite Ey]. intros psi I.
    assert (S : Csum (fun u => fst u * ph (snd u) I) (filter (fun u => negb (yodd (snd u))) q) = C0).
    { assert (R1 : forall l, (forall u, In u l -> In u q) -> Re (Csum (fun u => fst u * ph (snd u) I) (filter (fun u => negb (yodd (snd u))) l)) = 0%R /\ Im (Csum (fun u => fst u * ph (snd u) I) (filter (fun u => yodd (snd u)) l)) = 0%R).
      { induction l as [|u l IH]; intros Hl; [split; reflexivity|]. destruct IH as (A & B); [intros v Iv; apply Hl; now right|]. specialize (Hl u (or_introl eq_refl)). pose proof (all_imaginary u Hl) as Ru. destruct (parts u Hl) as (Pu & _). pose proof (ph_kind (snd u) I Pu) as Kd. cbn [filter].
        destruct (yodd (snd u)); cbn [negb]; rewrite Csum_cons; cbn [Re Im Cadd Cmul]; split; try assumption; rewrite ?A, ?B, Ru, Kd; ring. }
      destruct (R1 q (fun _ H => H)) as (A & B).
      assert (S : Csum (fun u => fst u * ph (snd u) I) (filter (fun u => negb (yodd (snd u))) q) + Csum (fun u => fst u * ph (snd u) I) (filter (fun u => yodd (snd u)) q) = RtoC (k I)).
      { rewrite <- sum_phases, !Csum_filter, <- Csum_add. apply Csum_ext. intros u _. destruct (yodd (snd u)); cbn [negb]; ring. }
      apply C_ext; [exact A|]. apply (f_equal Im) in S. cbn [Im Cadd RtoC] in S. rewrite B in S. cbn. lra. }
    transitivity (Csum (fun u => fst u * ph (snd u) I) (filter (fun u => negb (yodd (snd u))) q) * psi (flips X I)); [|rewrite S; ring].
    rewrite <- Csum_mul_r. apply Csum_ext. intros u Iu. apply filter_In in Iu. destruct (parts u (proj1 Iu)) as (Pu & Nu). rewrite (string_act _ Pu Nu), (same_flips u I (proj1 Iu)). ring.
  Qed.
  (** the real rotation speed of one string *)
  Definition speed (t : C * list gate) (I : nat) : R := Re (fst t * ph (snd t) I).
  Lemma term_gen t psi I : In t q -> fst t * circ_act (snd t) psi I = gen (flips X) (speed t) psi I.
  Proof.
    intros Ht. destruct (parts t Ht) as (Pt & Nt). rewrite (string_act _ Pt Nt), (same_flips t I Ht). unfold gen, speed. pose proof (all_imaginary t Ht) as R. pose proof (ph_kind (snd t) I Pt) as Kd. rewrite (all_odd t Ht) in Kd.
    apply C_ext; cbn; rewrite R, Kd; ring.
  Qed.
  Lemma speed_odd t : In t q -> odd_under (flips X) (speed t).
  Proof.
    intros Ht I. destruct (parts t Ht) as (Pt & Nt). unfold speed. rewrite <- (same_flips t I Ht), (ph_flips _ _ Pt Nt). pose proof (all_imaginary t Ht) as R. cbn. rewrite R. ring.
  Qed.
  Lemma speed_sum I : fold_right (fun t a => (speed t I + a)%R) 0%R q = k I.
  Proof.
    transitivity (Re (Csum (fun t => fst t * ph (snd t) I) q)); [|now rewrite sum_phases]. clear. induction q as [|t r IH]; [reflexivity|]. rewrite Csum_cons. cbn [fold_right]. rewrite IH. reflexivity.
  Qed.
End Struct.

(** ---- exponentials of multiples ---- *)
Lemma is_exp_scale z c A psi phi : (forall a b, a == b -> A a == A b) -> (forall w a, A (sscale w a) == sscale w (A a)) ->
  is_exp (z * c) A psi phi <-> is_exp z (fun a => sscale c (A a)) psi phi.
Proof.
  intros HE HS. assert (It : forall n, Nat.iter n (fun a => sscale c (A a)) psi == sscale (Cpow c n) (Nat.iter n A psi)).
  { induction n as [|n IH]; [intros I; cbn; unfold sscale; ring|]. cbn [Nat.iter nat_rect]. change (nat_rect (fun _ => state) psi (fun (_ : nat) (a : state) => sscale c (A a)) n) with (Nat.iter n (fun a => sscale c (A a)) psi). change (nat_rect (fun _ => state) psi (fun _ => A) n) with (Nat.iter n A psi).
    intros I. unfold sscale at 1. rewrite (HE _ _ IH I), (HS (Cpow c n) (Nat.iter n A psi) I). cbn [Cpow]. unfold sscale. ring. }
  assert (Pw : forall n, Cpow (z * c) n = Cpow z n * Cpow c n) by (induction n as [|n IH]; cbn [Cpow]; [ring|rewrite IH; ring]).
  assert (EP : forall I n, exp_partial (z * c) A psi I n = exp_partial z (fun a => sscale c (A a)) psi I n).
  { intros I n. unfold exp_partial. apply Csum_ext. intros j _. rewrite (It j I), Pw. unfold sscale. ring. }
  split; intros H I; destruct (H I) as (H1 & H2); split; eapply Un_cv_ext; try eassumption; intros n; cbn beta; now rewrite EP.
Qed.
(** the exponentials of the strings of such an operator, one after the other *)
Lemma strings_product q X k z psi phi : canonical_op q -> NoDup (map snd q) -> Forall (fun t => fst t <> C0) q -> NoDup X -> odd_under (flips X) k ->
  (forall psi I, op_act q psi I = gen (flips X) k psi I) -> exp_product (map (fun t => (RtoC z * fst t, circ_act (snd t))) q) psi phi -> phi == rot (flips X) (fun I => (z * k I)%R) psi.
Proof.
  intros HC HN H0 HX Hk HA E.
  assert (FF : forall I, flips X (flips X I) = I) by (intros I; now apply CompactProofs.flips_twice).
  assert (W : forall l, (forall t, In t l -> In t q) -> forall psi phi, exp_product (map (fun t => (RtoC z * fst t, circ_act (snd t))) l) psi phi -> phi == rot (flips X) (fun I => (z * fold_right (fun t a => (speed t I + a)%R) 0%R l)%R) psi).
  { induction l as [|t l IH]; intros Hl a b H; cbn [map exp_product] in H.
    - intros I. cbn [fold_right]. rewrite Rmult_0_r. rewrite rot_zero. apply H.
    - destruct H as (chi & H1 & H2). specialize (Hl t (or_introl eq_refl)) as Ht. apply is_exp_scale in H1; [|apply circ_act_ext|intros w x; apply circ_act_scale].
      apply (CompactProofs.is_exp_op _ _ (gen (flips X) (speed t))) in H1. 2: { intros p I. unfold sscale. now apply (term_gen q X k HC HN H0 HX Hk HA t). }
      assert (So' : odd_under (flips X) (speed t)) by (apply (speed_odd q X k); assumption).
      apply (gen_exp_unique _ FF _ _ _ _ So') in H1. assert (Hl' : forall t, In t l -> In t q) by (intros u Iu; apply Hl; now right). specialize (IH Hl' chi b H2). intros I. rewrite (IH I).
      replace chi with (rot (flips X) (fun J => (z * speed t J)%R) a) by (extensionality J; symmetry; apply H1). rewrite rot_rot by (try exact FF; intros J; rewrite So'; ring). apply rot_ext. cbn [fold_right]. ring. }
  intros I. rewrite (W q (fun _ H => H) psi phi E I). apply rot_ext. now rewrite (speed_sum q X k) by assumption.
Qed.
