(** Normal ordered products of ladder operators are linearly independent. *)
From Coq Require Import Reals String List Arith Bool Lia Lra Permutation Sorted.
From Verif Require Import CBase Result Bits Spec OpSpec SQSpec SafeProofs OperatorModel SQModel SQProofs FermiProofs RealOps.
Import ListNotations.
Local Open Scope C_scope.

Definition updl (I : nat) (l : list nat) (b : bool) : nat := fold_left (fun I p => upd I p b) l I.
Lemma bit_updl l : forall I b k, bit (updl I l b) k = if existsb (Nat.eqb k) l then b else bit I k.
Proof.
  induction l as [|p l IH]; intros I b k; [reflexivity|]. unfold updl in *. cbn [fold_left existsb]. rewrite IH, bit_upd. destruct (existsb (Nat.eqb k) l); [now rewrite orb_true_r|]. rewrite orb_false_r. reflexivity.
Qed.
Lemma existsb_in k l : existsb (Nat.eqb k) l = true <-> In k l.
Proof. rewrite existsb_exists. split; [intros (x & H & E); apply Nat.eqb_eq in E; now subst|intros H; exists k; split; [exact H|apply Nat.eqb_refl]]. Qed.
Lemma lads_at d l : NoDup l -> forall psi I, exists s, (s = C1 \/ s = - C1) /\
  lads d l psi I = if forallb (fun p => Bool.eqb (bit I p) d) l then s * psi (updl I l (negb d)) else C0.
Proof.
  induction 1 as [|p l Hp ND IH]; intros psi I.
  - exists C1. split; [now left|]. cbn. ring.
  - change (lads d (p :: l) psi) with (lad d p (lads d l psi)). unfold lad. cbn [forallb]. destruct (Bool.eqb (bit I p) d) eqn:E; cbn [andb].
    + destruct (IH psi (upd I p (negb d))) as (s & Hs & Es). rewrite Es. clear Es.
      assert (EF : forallb (fun q => Bool.eqb (bit (upd I p (negb d)) q) d) l = forallb (fun q => Bool.eqb (bit I q) d) l).
      { clear - Hp. induction l as [|q l IHl]; [reflexivity|]. cbn [forallb]. rewrite IHl by (intros H; apply Hp; now right). rewrite bit_upd. destruct (Nat.eqb_spec q p) as [->|]; [exfalso; apply Hp; now left|]. reflexivity. }
      rewrite EF. exists ((if odd_below I p then - C1 else C1) * s). split; [destruct (odd_below I p), Hs as [-> | ->]; [right|left|left|right]; ring|]. change (updl (upd I p (negb d)) l (negb d)) with (updl I (p :: l) (negb d)). unfold sgn. destruct (forallb (fun q => Bool.eqb (bit I q) d) l), (odd_below I p); ring.
    + exists C1. split; [now left|]. reflexivity.
Qed.
Definition mask (l : list nat) : nat := updl 0 l true.
Lemma bit_mask l k : bit (mask l) k = existsb (Nat.eqb k) l.
Proof. unfold mask. rewrite bit_updl. destruct (existsb _ l); [reflexivity|]. unfold bit. apply Nat.bits_0. Qed.
Lemma descending_unique l1 : forall l2, descending l1 -> descending l2 -> NoDup l1 -> NoDup l2 -> (forall k, In k l1 <-> In k l2) -> l1 = l2.
Proof.
  assert (TL : forall x l, descending (x :: l) -> descending l). { intros x l H i j d Hij. specialize (H (S i) (S j) d). cbn [length nth] in H. apply H. lia. }
  assert (HD : forall x l k, descending (x :: l) -> In k l -> (k <= x)%nat). { intros x l k H Hk. destruct (In_nth l k 0%nat Hk) as (i & Hi & <-). apply (H 0%nat (S i) 0%nat). cbn. lia. }
  induction l1 as [|x l1 IH]; intros [|y l2] D1 D2 N1 N2 E.
  - reflexivity.
  - exfalso. apply (proj2 (E y)). now left.
  - exfalso. apply (proj1 (E x)). now left.
  - assert (x = y). { assert (X : In x (y :: l2)) by (apply E; now left). assert (Y : In y (x :: l1)) by (apply E; now left). destruct X as [X|X]; [congruence|]. destruct Y as [Y|Y]; [congruence|]. apply (HD _ _ _ D2) in X. apply (HD _ _ _ D1) in Y. lia. }
    subst y. f_equal. apply NoDup_cons_iff in N1, N2. apply IH; try tauto; [now apply TL in D1|now apply TL in D2|]. intros k. specialize (E k). cbn in E. split; intros H; [destruct (proj1 E (or_intror H)) as [->|]; tauto|destruct (proj2 E (or_intror H)) as [->|]; tauto].
Qed.
Definition plain (t : fterm) : Prop := canonical_term t /\ NoDup (fcre t) /\ NoDup (fann t).
(** a normal ordered term takes the determinant of its annihilators to that of its creators; no other with as many annihilators does *)
Lemma word_diag C0' A0 : NoDup C0' -> NoDup A0 -> exists s, (s = C1 \/ s = - C1) /\ word C0' A0 (ket (mask A0)) (mask C0') = s.
Proof.
  intros NC NA. unfold word. destruct (lads_at true C0' NC (lads false A0 (ket (mask A0))) (mask C0')) as (s & Hs & Es). rewrite Es. clear Es.
  replace (forallb _ C0') with true by (symmetry; apply forallb_forall; intros p Hp; rewrite bit_mask; apply existsb_in in Hp; now rewrite Hp).
  destruct (lads_at false A0 NA (ket (mask A0)) (updl (mask C0') C0' (negb true))) as (s2 & Hs2 & Es2). rewrite Es2. clear Es2.
  assert (Z : forall p, bit (updl (mask C0') C0' (negb true)) p = false) by (intros p; rewrite bit_updl, bit_mask; now destruct (existsb _ _)).
  replace (forallb _ A0) with true by (symmetry; apply forallb_forall; intros p Hp; now rewrite Z).
  replace (updl (updl (mask C0') C0' (negb true)) A0 (negb false)) with (mask A0) by (apply bits_ext; intros p; rewrite bit_mask, bit_updl, Z; now destruct (existsb _ _)).
  unfold ket. rewrite Nat.eqb_refl. exists (s * s2). split; [destruct Hs as [-> | ->], Hs2 as [-> | ->]; [left|right|right|left]; ring|ring].
Qed.
Lemma word_off t t0 : plain t -> plain t0 -> (length (fann t0) <= length (fann t))%nat -> fkey t <> fkey t0 -> word (fcre t) (fann t) (ket (mask (fann t0))) (mask (fcre t0)) = C0.
Proof.
  intros [[Dc Da] [NC NA]] [[Dc0 Da0] [NC0 NA0]] L NE. unfold word. destruct (lads_at true (fcre t) NC (lads false (fann t) (ket (mask (fann t0)))) (mask (fcre t0))) as (s & _ & Es). rewrite Es. clear Es.
  destruct (forallb _ (fcre t)) eqn:E1; [|reflexivity]. destruct (lads_at false (fann t) NA (ket (mask (fann t0))) (updl (mask (fcre t0)) (fcre t) (negb true))) as (s2 & _ & Es2). rewrite Es2. clear Es2.
  destruct (forallb _ (fann t)) eqn:E2; [|ring]. unfold ket. destruct (Nat.eqb_spec (updl (updl (mask (fcre t0)) (fcre t) (negb true)) (fann t) (negb false)) (mask (fann t0))) as [E|]; [|ring]. exfalso. apply NE.
  assert (EB : forall k, (if existsb (Nat.eqb k) (fann t) then true else if existsb (Nat.eqb k) (fcre t) then false else existsb (Nat.eqb k) (fcre t0)) = existsb (Nat.eqb k) (fann t0)). { intros k. rewrite <- (bit_mask (fann t0) k), <- E, !bit_updl, bit_mask. reflexivity. }
  rewrite forallb_forall in E1, E2.
  assert (S1 : incl (fcre t) (fcre t0)). { intros k Hk. specialize (E1 k Hk). rewrite bit_mask in E1. apply existsb_in. now destruct (existsb _ _). }
  assert (S2 : incl (fann t) (fann t0)). { intros k Hk. apply existsb_in in Hk. specialize (EB k). rewrite Hk in EB. apply existsb_in. now symmetry. }
  assert (S3 : incl (fann t0) (fann t)) by (apply NoDup_length_incl; assumption).
  assert (S4 : incl (fcre t0) (fcre t)). { intros k Hk. destruct (existsb (Nat.eqb k) (fcre t)) eqn:Ek; [now apply existsb_in|]. exfalso. specialize (EB k). rewrite Ek in EB. apply existsb_in in Hk. rewrite Hk in EB. assert (X : existsb (Nat.eqb k) (fann t0) = true) by (rewrite <- EB; now destruct (existsb _ _)). apply existsb_in, S3 in X. specialize (E2 k X). rewrite bit_updl, Ek, bit_mask, Hk in E2. discriminate. }
  unfold fkey. f_equal; apply descending_unique; try assumption; intros k; split; auto.
Qed.
Theorem fermi_independent o : Forall plain o -> NoDup (map fkey o) -> (forall psi, fermi_act o psi == szero) -> Forall (fun t => fcoef t = C0) o.
Proof.
  intros HP ND HZ. rewrite Forall_forall in HP.
  assert (G : forall k t, In t o -> length (fann t) = k -> fcoef t = C0).
  { intros k. induction (lt_wf k) as [k _ IH]. intros t0 H0 L0. specialize (HZ (ket (mask (fann t0))) (mask (fcre t0))). rewrite fermi_word in HZ. unfold szero in HZ. apply in_split in H0. destruct H0 as (l1 & l2 & ->).
    assert (N2 : forall t, In t (l1 ++ l2) -> fkey t <> fkey t0). { intros t Ht E. rewrite map_app in ND. cbn [map] in ND. apply NoDup_remove_2 in ND. apply ND. rewrite <- map_app, <- E. now apply in_map. }
    assert (Z : forall t, In t (l1 ++ l2) -> fcoef t * word (fcre t) (fann t) (ket (mask (fann t0))) (mask (fcre t0)) = C0).
    { intros t Ht. assert (In t (l1 ++ t0 :: l2)) as Hi by (apply in_app_iff in Ht; apply in_app_iff; cbn; tauto). destruct (Nat.lt_ge_cases (length (fann t)) k) as [Lt|Ge].
      - rewrite (IH _ Lt t Hi eq_refl). ring.
      - rewrite word_off; [ring| | | |]; [now apply HP|apply HP, in_elt|lia|now apply N2]. }
    rewrite Csum_app, Csum_cons in HZ. rewrite (Csum_zero _ l1), (Csum_zero _ l2) in HZ by (intros t Ht; apply Z, in_app_iff; tauto).
    destruct (HP t0 (in_elt _ _ _)) as [_ [NC NA]]. destruct (word_diag (fcre t0) (fann t0) NC NA) as (s & Hs & Es). rewrite Es in HZ.
    destruct Hs as [-> | ->]; [replace (fcoef t0) with (C0 + (fcoef t0 * C1 + C0)) by ring; exact HZ|]. replace (fcoef t0) with (- C1 * (C0 + (fcoef t0 * - C1 + C0))) by ring. rewrite HZ. ring. }
  apply Forall_forall. intros t Ht. now apply (G (length (fann t))).
Qed.
