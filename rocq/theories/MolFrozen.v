(** Frozen orbitals. *)
From Coq Require Import Reals String List Arith Bool Lia Lra Permutation.
From Verif Require Import CBase Result Bits Spec OpSpec SQSpec LibProofs SafeProofs OperatorModel SQModel SQProofs JWProofs FermiProofs MolModel MolSpec MolProofs.
From Verif Require PauliExp SparseProofs.
Import ListNotations.
Local Open Scope C_scope.

(** ---- bits of a state with core ---- *)
Lemma bit_shift I m p : bit (I / 2 ^ m) p = bit I (p + m).
Proof. unfold bit. apply Nat.div_pow2_bits. Qed.
Lemma core_bits I m : Nat.eqb (I mod 2 ^ m) (2 ^ m - 1) = true <-> forall p, (p < m)%nat -> bit I p = true.
Proof.
  rewrite Nat.eqb_eq. replace (2 ^ m - 1)%nat with (Nat.ones m) by (rewrite Nat.ones_equiv; lia). split.
  - intros E p Hp. unfold bit. rewrite <- (Nat.mod_pow2_bits_low I m p Hp), E. apply Nat.ones_spec_low. exact Hp.
  - intros H. apply Nat.bits_inj. intros p. destruct (Nat.lt_ge_cases p m) as [Lt|Ge].
    + rewrite Nat.mod_pow2_bits_low, Nat.ones_spec_low by lia. now apply H.
    + rewrite Nat.mod_pow2_bits_high, Nat.ones_spec_high by lia. reflexivity.
Qed.
Lemma odd_shift I m q : odd_below I (q + m) = xorb (odd_below (I / 2 ^ m) q) (odd_below I m).
Proof. induction q as [|q IH]; [cbn [Nat.add odd_below]; now rewrite xorb_false_l|]. cbn [Nat.add odd_below]. rewrite IH, bit_shift. now rewrite xorb_assoc. Qed.
Lemma odd_core I k : (forall p, (p < 2 * k)%nat -> bit I p = true) -> odd_below I (2 * k) = false.
Proof.
  intros H. induction k as [|k IH]; [reflexivity|]. replace (2 * S k)%nat with (S (S (2 * k))) by lia. cbn [odd_below]. rewrite IH by (intros p Hp; apply H; lia). rewrite !H by lia. reflexivity.
Qed.
Section core.
Context (c na : nat).
Definition in_core (I : nat) : bool := (Nat.eqb (I mod 2 ^ (2 * c)) (2 ^ (2 * c) - 1) && (I / 2 ^ (2 * c) <? 2 ^ na)%nat)%bool.
Lemma in_core_bits I : in_core I = true <-> (forall p, (p < 2 * c)%nat -> bit I p = true) /\ (forall p, (2 * c + na <= p)%nat -> bit I p = false).
Proof.
  unfold in_core. rewrite andb_true_iff, core_bits, Nat.ltb_lt, lt_pow2_bits. split; intros [H1 H2]; (split; [exact H1|]).
  - intros p Hp. specialize (H2 (p - 2 * c)%nat ltac:(lia)). rewrite bit_shift in H2. rewrite <- H2. f_equal. lia.
  - intros p Hp. rewrite bit_shift. apply H2. lia.
Qed.
Lemma in_core_upd I q b : (q < na)%nat -> in_core (upd I (q + 2 * c) b) = in_core I.
Proof.
  intros Hq. apply eq_true_iff_eq. rewrite !in_core_bits. split; intros [H1 H2]; (split; intros p Hp; [specialize (H1 p Hp)|specialize (H2 p Hp)]); rewrite bit_upd in *; destruct (Nat.eqb_spec p (q + 2 * c)); try lia; assumption.
Qed.
Lemma core_upd I q b : (upd I (q + 2 * c) b / 2 ^ (2 * c) = upd (I / 2 ^ (2 * c)) q b)%nat.
Proof.
  apply bits_ext. intros p. rewrite bit_shift, !bit_upd, bit_shift. destruct (Nat.eqb_spec (p + 2 * c) (q + 2 * c)), (Nat.eqb_spec p q); try lia; reflexivity.
Qed.
Lemma with_core_at psi I : with_core c na psi I = if in_core I then psi (I / 2 ^ (2 * c))%nat else C0.
Proof. reflexivity. Qed.
Lemma core_full p psi : (p < 2 * c)%nat -> create p (with_core c na psi) == szero.
Proof.
  intros Hp I. unfold create, szero. destruct (bit I p); [|reflexivity]. rewrite with_core_at. destruct (in_core (upd I p false)) eqn:E; [|ring]. apply in_core_bits in E. destruct E as [E _]. specialize (E p Hp). rewrite bit_upd_same in E. discriminate.
Qed.
Lemma virtual_empty p psi : (2 * c + na <= p)%nat -> annihilate p (with_core c na psi) == szero.
Proof.
  intros Hp I. unfold annihilate, szero. destruct (bit I p); [reflexivity|]. rewrite with_core_at. destruct (in_core (upd I p true)) eqn:E; [|ring]. apply in_core_bits in E. destruct E as [_ E]. specialize (E p Hp). rewrite bit_upd_same in E. discriminate.
Qed.
Lemma core_sign I q : in_core I = true -> odd_below I (q + 2 * c) = odd_below (I / 2 ^ (2 * c)) q.
Proof. intros H. apply in_core_bits in H. rewrite odd_shift, odd_core by apply H. apply xorb_false_r. Qed.
Lemma active_annihilate q psi : (q < na)%nat -> annihilate (q + 2 * c) (with_core c na psi) == with_core c na (annihilate q psi).
Proof.
  intros Hq I. unfold annihilate at 1. rewrite !with_core_at, in_core_upd, core_upd by exact Hq. unfold annihilate. rewrite bit_shift. destruct (in_core I) eqn:E; [rewrite core_sign by exact E; reflexivity|]. destruct (bit I (q + 2 * c)); ring.
Qed.
Lemma active_create q psi : (q < na)%nat -> create (q + 2 * c) (with_core c na psi) == with_core c na (create q psi).
Proof.
  intros Hq I. unfold create at 1. rewrite !with_core_at, in_core_upd, core_upd by exact Hq. unfold create. rewrite bit_shift. destruct (in_core I) eqn:E; [rewrite core_sign by exact E; reflexivity|]. destruct (bit I (q + 2 * c)); ring.
Qed.
Lemma core_inner n phi psi : (2 * c + na <= n)%nat -> inner n (with_core c na phi) (with_core c na psi) = inner na phi psi.
Proof.
  intros Hn. unfold inner. replace (2 ^ n)%nat with (2 ^ (n - 2 * c) * 2 ^ (2 * c))%nat by (rewrite <- Nat.pow_add_r; f_equal; lia). rewrite <- PauliExp.Csum_blocks. set (K := (2 ^ (2 * c))%nat). assert (K0 : (0 < K)%nat) by (unfold K; pose proof (pow2_pos (2 * c)); lia).
  transitivity (Csum (fun J => if (J <? 2 ^ na)%nat then Cconj (phi J) * psi J else C0) (seq 0 (2 ^ (n - 2 * c)))).
  - apply Csum_ext. intros J _. rewrite (Csum_ext _ (fun k => if (k =? K - 1)%nat then (if (J <? 2 ^ na)%nat then Cconj (phi J) * psi J else C0) else C0)).
    + rewrite (SparseProofs.Csum_delta (fun _ => if (J <? 2 ^ na)%nat then Cconj (phi J) * psi J else C0)). destruct (Nat.ltb_spec (K - 1) K); [reflexivity|lia].
    + intros k Hk. apply in_seq in Hk. rewrite !with_core_at. unfold in_core. fold K. assert (E1 : ((J * K + k) / K = J)%nat) by (rewrite Nat.add_comm, Nat.div_add by lia; rewrite Nat.div_small by lia; reflexivity). assert (E2 : ((J * K + k) mod K = k)%nat) by (rewrite Nat.add_comm, Nat.mod_add by lia; apply Nat.mod_small; lia).
      rewrite E1, E2. destruct (k =? K - 1)%nat; cbn [andb]; [|apply C_ext; cbn; ring]. destruct (J <? 2 ^ na)%nat; [reflexivity|apply C_ext; cbn; ring].
  - assert (L : (2 ^ na <= 2 ^ (n - 2 * c))%nat) by (apply Nat.pow_le_mono_r; lia). replace (2 ^ (n - 2 * c))%nat with (2 ^ na + (2 ^ (n - 2 * c) - 2 ^ na))%nat by lia. rewrite seq_app, Csum_app. rewrite (Csum_zero _ (seq (0 + 2 ^ na) _)).
    + rewrite (Csum_ext _ (fun J => Cconj (phi J) * psi J)); [ring|]. intros J HJ. apply in_seq in HJ. destruct (Nat.ltb_spec J (2 ^ na)); [reflexivity|lia].
    + intros J HJ. apply in_seq in HJ. destruct (Nat.ltb_spec J (2 ^ na)); [lia|reflexivity].
Qed.
(** ---- matrix elements ---- *)
Context (n : nat) (Hn : (2 * c + na <= n)%nat) (phi psi : state).
Let W := with_core c na.
Definition M0 : C := inner n (W phi) (W psi).
Definition M1 (p q : nat) : C := inner n (W phi) (hop p q (W psi)).
Definition M2 (p r s q : nat) : C := inner n (W phi) (scatter p r s q (W psi)).
Lemma inner_zero a b : a == szero -> inner n a b = C0.
Proof. intros H. unfold inner. apply Csum_zero. intros I _. rewrite (H I). unfold szero. apply C_ext; cbn; ring. Qed.
Lemma inner_zero_r a b : b == szero -> inner n a b = C0.
Proof. intros H. unfold inner. apply Csum_zero. intros I _. rewrite (H I). unfold szero. ring. Qed.
Lemma sext_zero k a : a == szero -> sscale k a == szero.
Proof. intros H I. unfold sscale. rewrite (H I). unfold szero. ring. Qed.
(** a creator of the core in front of an annihilator contracts with it *)
Lemma hop_core p q : (p < 2 * c)%nat -> hop p q (W psi) == if Nat.eqb p q then W psi else szero.
Proof.
  intros Hp. unfold hop. eapply seq_trans; [apply mixed|]. intros I. unfold sadd, sscale, W. rewrite (annihilate_ext q _ _ (core_full p psi Hp) I), (annihilate_zero q I). unfold szero. destruct (Nat.eqb p q); ring.
Qed.
Lemma M1_core p q : (p < 2 * c)%nat -> M1 p q = if Nat.eqb p q then M0 else C0.
Proof. intros Hp. unfold M1. rewrite (inner_ext n _ _ _ _ (seq_refl _) (hop_core p q Hp)). destruct (Nat.eqb p q); [reflexivity|]. apply inner_zero_r, seq_refl. Qed.
Lemma M1_virtual p q : (2 * c + na <= p < n)%nat \/ (2 * c + na <= q)%nat -> M1 p q = C0.
Proof.
  intros [H|H]; unfold M1, hop.
  - rewrite inner_create by lia. apply inner_zero. apply virtual_empty. lia.
  - apply inner_zero_r. eapply seq_trans; [apply create_ext, virtual_empty, H|apply create_zero].
Qed.
Lemma M1_mixed p q : (2 * c <= p)%nat -> (q < 2 * c)%nat -> M1 p q = C0.
Proof.
  intros Hp Hq. unfold M1, hop. rewrite (inner_ext n _ _ _ _ (seq_refl _) (mixed p q (W psi))). destruct (Nat.eqb_spec p q); [lia|]. rewrite inner_add_r, inner_scale_r, (inner_zero_r _ szero (seq_refl _)), inner_annihilate by lia. rewrite inner_zero by (apply core_full, Hq). ring.
Qed.
Lemma M1_active p q : (p < na)%nat -> (q < na)%nat -> M1 (p + 2 * c) (q + 2 * c) = inner na phi (hop p q psi).
Proof.
  intros Hp Hq. unfold M1. rewrite <- (core_inner n phi (hop p q psi) Hn). apply inner_ext; [apply seq_refl|]. unfold hop. eapply seq_trans; [apply create_ext, active_annihilate, Hq|]. apply active_create, Hp.
Qed.
Lemma M2_core p r s q : (p < 2 * c)%nat -> M2 p r s q = (if Nat.eqb p q then M1 r s else C0) - (if Nat.eqb p s then M1 r q else C0).
Proof.
  intros Hp. assert (E : scatter p r s q (W psi) == sadd (if Nat.eqb p q then hop r s (W psi) else szero) (sscale (- C1) (if Nat.eqb p s then hop r q (W psi) else szero))).
  { unfold scatter. eapply seq_trans; [apply cre_anti|]. intros I.
    assert (E1 : create p (annihilate s (annihilate q (W psi))) == sadd (if Nat.eqb p s then annihilate q (W psi) else szero) (sscale (- C1) (if Nat.eqb p q then annihilate s (W psi) else szero))).
    { eapply seq_trans; [apply mixed|]. intros J. unfold sadd, sscale. f_equal. f_equal. change (create p (annihilate q (W psi))) with (hop p q (W psi)). rewrite (annihilate_ext s _ _ (hop_core p q Hp) J). destruct (Nat.eqb p q); [reflexivity|apply annihilate_zero]. }
    unfold sscale at 1. rewrite (create_ext r _ _ E1 I). rewrite !create_lad. rewrite (lad_add true r _ _ I). unfold sadd. rewrite (lad_scale true r _ _ I). unfold sscale. unfold hop.
    assert (ER : forall (b : bool) X, lad true r (if b then X else szero) I = (if b then create r X else szero) I) by (intros [|] X; [symmetry; apply create_lad|rewrite <- (create_lad r szero I); apply create_zero]). rewrite !ER. ring. }
  unfold M2. rewrite (inner_ext n _ _ _ _ (seq_refl _) E), inner_add_r, inner_scale_r. unfold M1. destruct (Nat.eqb p q), (Nat.eqb p s); rewrite ?(inner_zero_r _ szero (seq_refl _)); ring.
Qed.
Lemma M2_swap p r s q : M2 p r s q = M2 r p q s.
Proof.
  unfold M2, scatter. rewrite (inner_ext n _ _ _ _ (seq_refl _) (cre_anti p r _)), inner_scale_r.
  assert (E : create r (create p (annihilate s (annihilate q (W psi)))) == sscale (- C1) (create r (create p (annihilate q (annihilate s (W psi)))))).
  { eapply seq_trans; [apply create_ext, create_ext, ann_anti|]. eapply seq_trans; [apply create_ext, create_scale|apply create_scale]. }
  rewrite (inner_ext n _ _ _ _ (seq_refl _) E), inner_scale_r. ring.
Qed.
Lemma M2_core' p r s q : (r < 2 * c)%nat -> M2 p r s q = (if Nat.eqb r s then M1 p q else C0) - (if Nat.eqb r q then M1 p s else C0).
Proof. intros Hr. rewrite M2_swap. apply M2_core, Hr. Qed.
Lemma M2_virtual p r s q : (2 * c + na <= p < n)%nat \/ (2 * c + na <= r < n)%nat \/ (2 * c + na <= s)%nat \/ (2 * c + na <= q)%nat -> M2 p r s q = C0.
Proof.
  assert (G1 : forall p r s q, (2 * c + na <= p < n)%nat -> M2 p r s q = C0) by (intros p' r' s' q' H; unfold M2, scatter; rewrite inner_create by lia; apply inner_zero, virtual_empty; lia).
  assert (G2 : forall p r s q, (2 * c + na <= q)%nat -> M2 p r s q = C0). { intros p' r' s' q' H. unfold M2, scatter. apply inner_zero_r. intros I. rewrite (create_ext p' _ szero); [apply create_zero|]. eapply seq_trans; [apply create_ext|apply create_zero]. eapply seq_trans; [apply annihilate_ext, virtual_empty, H|apply annihilate_zero]. }
  intros [H|[H|[H|H]]]; [now apply G1|rewrite M2_swap; now apply G1|rewrite M2_swap; now apply G2|now apply G2].
Qed.
Lemma ann_cre_far p q a : p <> q -> annihilate q (create p a) == sscale (- C1) (create p (annihilate q a)).
Proof. intros H I. pose proof (mixed p q a I) as E. destruct (Nat.eqb_spec p q); [contradiction|]. unfold sadd, sscale, szero in E. unfold sscale. rewrite E. ring. Qed.
Lemma M2_hole p r s q : (2 * c <= p)%nat -> (2 * c <= r)%nat -> (s < 2 * c)%nat \/ (q < 2 * c)%nat -> M2 p r s q = C0.
Proof.
  assert (G : forall p r s q, (2 * c <= p)%nat -> (2 * c <= r)%nat -> (s < 2 * c)%nat -> M2 p r s q = C0).
  { intros p' r' s' q' Hp Hr Hs. unfold M2, scatter. set (x := annihilate q' (W psi)).
    assert (E : create p' (create r' (annihilate s' x)) == annihilate s' (create p' (create r' x))).
    { apply seq_sym. eapply seq_trans; [apply ann_cre_far; lia|]. intros I. unfold sscale. rewrite (create_ext p' _ _ (ann_cre_far r' s' x ltac:(lia)) I), (create_scale p' _ _ I). unfold sscale. ring. }
    rewrite (inner_ext n _ _ _ _ (seq_refl _) E), inner_annihilate by lia. apply inner_zero, core_full, Hs. }
  intros Hp Hr [H|H]; [now apply G|rewrite M2_swap; now apply G].
Qed.
Lemma M2_active p r s q : (p < na)%nat -> (r < na)%nat -> (s < na)%nat -> (q < na)%nat -> M2 (p + 2 * c) (r + 2 * c) (s + 2 * c) (q + 2 * c) = inner na phi (scatter p r s q psi).
Proof.
  intros Hp Hr Hs Hq. unfold M2. rewrite <- (core_inner n phi (scatter p r s q psi) Hn). apply inner_ext; [apply seq_refl|]. unfold scatter.
  eapply seq_trans; [apply create_ext, create_ext, annihilate_ext, active_annihilate, Hq|]. eapply seq_trans; [apply create_ext, create_ext, active_annihilate, Hs|]. eapply seq_trans; [apply create_ext, active_create, Hr|]. apply active_create, Hp.
Qed.
End core.
