(** Algebra of the spin-adapted operators. *)
From Coq Require Import Reals List Arith Bool Lia Lra FunctionalExtensionality.
From Verif Require Import CBase Bits Spec SQSpec SQProofs FermiProofs SaSpec.
Import ListNotations.
Local Open Scope C_scope.

Lemma eqs (a b : state) : a == b -> a = b.
Proof. intros H. apply functional_extensionality. exact H. Qed.
Lemma create_sub p a b : create p (ssub a b) = ssub (create p a) (create p b).
Proof. apply eqs. intros I. unfold create, ssub. destruct (bit I p); ring. Qed.
Lemma create_sum p a b : create p (sadd a b) = sadd (create p a) (create p b).
Proof. apply eqs. intros I. unfold create, sadd. destruct (bit I p); ring. Qed.
Lemma create_zero p : create p szero = szero.
Proof. apply eqs. intros I. unfold create, szero. destruct (bit I p); ring. Qed.
Lemma ann_sub p a b : annihilate p (ssub a b) = ssub (annihilate p a) (annihilate p b).
Proof. apply eqs. intros I. unfold annihilate, ssub. destruct (bit I p); ring. Qed.
Lemma ann_sum p a b : annihilate p (sadd a b) = sadd (annihilate p a) (annihilate p b).
Proof. apply eqs. intros I. unfold annihilate, sadd. destruct (bit I p); ring. Qed.
Lemma cc p q psi : create p (create q psi) = ssub szero (create q (create p psi)).
Proof.
  apply eqs. intros I. rewrite (eqs _ _ (create_lad p (create q psi))), (eqs _ _ (create_lad q psi)), lad_anti.
  unfold ssub, szero. rewrite (eqs _ _ (create_lad q (create p psi))), (eqs _ _ (create_lad p psi)). ring.
Qed.
Lemma aa p q psi : annihilate p (annihilate q psi) = ssub szero (annihilate q (annihilate p psi)).
Proof.
  apply eqs. intros I. rewrite (eqs _ _ (annihilate_lad p (annihilate q psi))), (eqs _ _ (annihilate_lad q psi)), lad_anti.
  unfold ssub, szero. rewrite (eqs _ _ (annihilate_lad q (annihilate p psi))), (eqs _ _ (annihilate_lad p psi)). ring.
Qed.
Lemma Chalf (x : C) : x = - x -> x = C0.
Proof. intros H. destruct x as [a b]. injection H as Ha Hb. apply C_ext; cbn in *; lra. Qed.
Lemma cc0 p psi : create p (create p psi) = szero.
Proof. apply eqs. intros I. unfold szero. apply Chalf. transitivity (ssub szero (create p (create p psi)) I); [now rewrite <- cc | unfold ssub, szero; ring]. Qed.
Lemma aa0 p psi : annihilate p (annihilate p psi) = szero.
Proof. apply eqs. intros I. unfold szero. apply Chalf. transitivity (ssub szero (annihilate p (annihilate p psi)) I); [now rewrite <- aa | unfold ssub, szero; ring]. Qed.
Lemma ann_zero p : annihilate p szero = szero.
Proof. apply eqs. intros I. unfold annihilate, szero. destruct (bit I p); ring. Qed.
Lemma ca p q psi : annihilate q (create p psi) = ssub (if Nat.eqb p q then psi else szero) (create p (annihilate q psi)).
Proof.
  apply eqs. intros I. pose proof (lad_anti_mixed p q psi I) as H. unfold ssub.
  transitivity (create p (annihilate q psi) I + annihilate q (create p psi) I - create p (annihilate q psi) I); [ring|rewrite H].
  destruct (Nat.eqb p q); reflexivity.
Qed.

(** a+_p a+_q a_r a_s *)
Definition L4 (p q r s : nat) (psi : state) : state := create p (create q (annihilate r (annihilate s psi))).
Lemma L4_word p q r s psi : ladder_act [p; q] [r; s] psi = L4 p q r s psi.
Proof. reflexivity. Qed.
Lemma L4_zero p q r s psi : p = q \/ r = s -> L4 p q r s psi = szero.
Proof. unfold L4. intros [->| ->]; [apply cc0 | now rewrite aa0, !create_zero]. Qed.
Lemma L4_swap_ann p q r s psi I : L4 p q s r psi I = - L4 p q r s psi I.
Proof. unfold L4. rewrite (aa s r), !create_sub, !create_zero. unfold ssub, szero. ring. Qed.
Lemma L4_swap_cre p q r s psi I : L4 q p r s psi I = - L4 p q r s psi I.
Proof. unfold L4. rewrite (cc q p). unfold ssub, szero. ring. Qed.
Lemma move_two p q r s psi I : q <> r -> create p (annihilate q (create r (annihilate s psi))) I = - L4 p r q s psi I.
Proof.
  intros N. rewrite ca. destruct (Nat.eqb_spec r q) as [E|_]; [congruence|]. rewrite create_sub, create_zero. unfold L4, ssub, szero. ring.
Qed.
Lemma transfer_two a i b j psi I : i <> b ->
  transfer a i (transfer b j psi) I = - (L4 (2 * a) (2 * b) (2 * i) (2 * j) psi I + L4 (2 * a) (2 * b + 1) (2 * i) (2 * j + 1) psi I +
    L4 (2 * a + 1) (2 * b) (2 * i + 1) (2 * j) psi I + L4 (2 * a + 1) (2 * b + 1) (2 * i + 1) (2 * j + 1) psi I).
Proof.
  intros N. unfold transfer. rewrite !ann_sum, !create_sum. unfold sadd. rewrite !move_two by lia. ring.
Qed.

(** ---- spin operators ---- *)
Lemma create_csum p (f : nat -> state) l : create p (fun I => Csum (fun x => f x I) l) = fun I => Csum (fun x => create p (f x) I) l.
Proof. apply eqs. intros I. unfold create. destruct (bit I p); [symmetry; apply Csum_mul_l | symmetry; apply Csum_zero; reflexivity]. Qed.
Lemma ann_csum p (f : nat -> state) l : annihilate p (fun I => Csum (fun x => f x I) l) = fun I => Csum (fun x => annihilate p (f x) I) l.
Proof. apply eqs. intros I. unfold annihilate. destruct (bit I p); [symmetry; apply Csum_zero; reflexivity | symmetry; apply Csum_mul_l]. Qed.
Lemma hop_create x y z psi : create x (annihilate y (create z psi)) = sadd (if Nat.eqb z y then create x psi else szero) (create z (create x (annihilate y psi))).
Proof.
  rewrite ca, create_sub, (cc x z). apply eqs. intros I. unfold ssub, sadd, szero. destruct (Nat.eqb z y); [ring|]. change (fun _ : nat => C0) with szero. rewrite create_zero. unfold szero. ring.
Qed.
Lemma hop_ann x y z psi : create x (annihilate y (annihilate z psi)) = ssub (annihilate z (create x (annihilate y psi))) (if Nat.eqb x z then annihilate y psi else szero).
Proof.
  rewrite (aa y z), create_sub, create_zero, ca. apply eqs. intros I. unfold ssub, szero. destruct (Nat.eqb x z); ring.
Qed.
Lemma Csum_one (f : nat -> C) m p : (p < m)%nat -> (forall k, k <> p -> f k = C0) -> Csum f (seq 0 m) = f p.
Proof.
  intros L H. assert (K : forall n s, (s <= p < s + n)%nat -> Csum f (seq s n) = f p).
  { induction n as [|n IH]; intros s B; [lia|]. cbn [seq]. rewrite Csum_cons. destruct (Nat.eq_dec s p) as [->|N].
    - rewrite Csum_zero; [ring|]. intros x I. apply in_seq in I. apply H. lia.
    - rewrite IH by lia. rewrite H by exact N. ring. }
  apply K. lia.
Qed.
Section Spin.
Variables (m : nat) (up dn : nat -> nat).
(** sum of a+_(up p) a_(dn p) *)
Definition flip (psi : state) : state := fun I => Csum (fun p => create (up p) (annihilate (dn p) psi) I) (seq 0 m).
Lemma flip_create z psi : flip (create z psi) = sadd (fun I => Csum (fun p => (if Nat.eqb z (dn p) then create (up p) psi else szero) I) (seq 0 m)) (create z (flip psi)).
Proof.
  unfold flip. rewrite (create_csum z (fun p => create (up p) (annihilate (dn p) psi))). apply eqs. intros I. unfold sadd. rewrite <- Csum_add. apply Csum_ext. intros p _. now rewrite hop_create.
Qed.
Lemma flip_ann z psi : flip (annihilate z psi) = sadd (annihilate z (flip psi)) (fun I => Csum (fun p => - (if Nat.eqb (up p) z then annihilate (dn p) psi else szero) I) (seq 0 m)).
Proof.
  unfold flip. rewrite (ann_csum z (fun p => create (up p) (annihilate (dn p) psi))). apply eqs. intros I. unfold sadd. rewrite <- Csum_add. apply Csum_ext. intros p _. rewrite hop_ann. unfold ssub. ring.
Qed.
Lemma flip_add a b : flip (sadd a b) = sadd (flip a) (flip b).
Proof. unfold flip. apply eqs. intros I. unfold sadd at 2. rewrite <- Csum_add. apply Csum_ext. intros p _. rewrite ann_sum, create_sum. reflexivity. Qed.
Lemma flip_sub a b : flip (ssub a b) = ssub (flip a) (flip b).
Proof.
  unfold flip. apply eqs. intros I. unfold ssub at 2. transitivity (Csum (fun p => create (up p) (annihilate (dn p) a) I) (seq 0 m) + Csum (fun p => - C1 * create (up p) (annihilate (dn p) b) I) (seq 0 m)).
  - rewrite <- Csum_add. apply Csum_ext. intros p _. rewrite ann_sub, create_sub. unfold ssub. ring.
  - rewrite Csum_mul_l. ring.
Qed.
Lemma flip_scale k a : flip (sscale k a) = sscale k (flip a).
Proof.
  unfold flip. apply eqs. intros I. unfold sscale at 2. rewrite <- Csum_mul_l. apply Csum_ext. intros p _.
  rewrite (eqs _ _ (annihilate_scale (dn p) k a)), (eqs _ _ (create_scale (up p) k (annihilate (dn p) a))). reflexivity.
Qed.
End Spin.
Lemma plus_flip m : spin_plus m = flip m (fun p => 2 * p)%nat (fun p => 2 * p + 1)%nat.
Proof. reflexivity. Qed.
Lemma minus_flip m : spin_minus m = flip m (fun p => 2 * p + 1)%nat (fun p => 2 * p)%nat.
Proof. reflexivity. Qed.
Ltac nateq := repeat match goal with |- context [Nat.eqb ?a ?b] => destruct (Nat.eqb_spec a b); try lia end.
Lemma transfer_plus m p q psi : (p < m)%nat -> (q < m)%nat -> spin_plus m (transfer p q psi) = transfer p q (spin_plus m psi).
Proof.
  intros Lp Lq. rewrite plus_flip. unfold transfer. rewrite flip_add, !flip_create, !flip_ann, !create_sum. apply eqs. intros I. unfold sadd.
  rewrite (Csum_zero _ (seq 0 m)) by (intros k _; nateq; reflexivity).
  rewrite (Csum_one _ m p Lp) by (intros k Nk; nateq; reflexivity).
  rewrite (eqs (fun I0 => Csum (fun p0 => - (if (2 * p0 =? 2 * q)%nat then annihilate (2 * p0 + 1) psi else szero) I0) (seq 0 m)) (ssub szero (annihilate (2 * q + 1) psi))).
  2:{ intros J. rewrite (Csum_one _ m q Lq); [rewrite Nat.eqb_refl; unfold ssub, szero; ring | intros k Nk; nateq; unfold szero; ring]. }
  rewrite (eqs (fun I0 => Csum (fun p0 => - (if (2 * p0 =? 2 * q + 1)%nat then annihilate (2 * p0 + 1) psi else szero) I0) (seq 0 m)) szero).
  2:{ intros J. apply Csum_zero. intros k _. nateq. unfold szero. ring. }
  rewrite !create_sub, !create_zero. unfold ssub, szero. destruct (Nat.eqb_spec (2 * p + 1) (2 * p + 1)); [|lia]. ring.
Qed.
Lemma transfer_minus m p q psi : (p < m)%nat -> (q < m)%nat -> spin_minus m (transfer p q psi) = transfer p q (spin_minus m psi).
Proof.
  intros Lp Lq. rewrite minus_flip. unfold transfer. rewrite flip_add, !flip_create, !flip_ann, !create_sum. apply eqs. intros I. unfold sadd.
  rewrite (Csum_one _ m p Lp) by (intros k Nk; nateq; reflexivity).
  rewrite (Csum_zero (fun p0 => (if (2 * p + 1 =? 2 * p0)%nat then _ else szero) I) (seq 0 m)) by (intros k _; nateq; reflexivity).
  rewrite (eqs (fun I0 => Csum (fun p0 => - (if (2 * p0 + 1 =? 2 * q + 1)%nat then annihilate (2 * p0) psi else szero) I0) (seq 0 m)) (ssub szero (annihilate (2 * q) psi))).
  2:{ intros J. rewrite (Csum_one _ m q Lq); [rewrite Nat.eqb_refl; unfold ssub, szero; ring | intros k Nk; nateq; unfold szero; ring]. }
  rewrite (eqs (fun I0 => Csum (fun p0 => - (if (2 * p0 + 1 =? 2 * q)%nat then annihilate (2 * p0) psi else szero) I0) (seq 0 m)) szero).
  2:{ intros J. apply Csum_zero. intros k _. nateq. unfold szero. ring. }
  rewrite !create_sub, !create_zero. unfold ssub, szero. destruct (Nat.eqb_spec (2 * p) (2 * p)); [|lia]. ring.
Qed.
