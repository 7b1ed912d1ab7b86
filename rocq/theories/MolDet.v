(** Energies of determinants. *)
From Coq Require Import Reals String List Arith Bool Lia Lra Permutation.
From Verif Require Import CBase Result Bits Spec OpSpec SQSpec LibProofs SafeProofs OperatorModel SQModel SQProofs FermiProofs SpinOps FermiIndep MolModel MolSpec MolProofs MolFrozen MolCore MolEnergy.
From Verif Require QftProofs SaFermi.
Import ListNotations.
Local Open Scope C_scope.

Lemma hop_number p D : hop p p (ket D) == if bit D p then ket D else szero.
Proof.
  unfold hop. destruct (bit D p) eqn:E.
  - intros I. rewrite (create_ext p _ _ (annihilate_ket p D E) I), (create_scale p _ _ I). unfold sscale. assert (E2 : bit (upd D p false) p = false) by apply bit_upd_same. rewrite (create_ket p _ E2 I). unfold sscale. rewrite upd_upd, odd_below_upd, Nat.ltb_irrefl. replace (upd D p true) with D; [unfold sgn; destruct (odd_below D p); ring|]. apply bits_ext. intros k. rewrite bit_upd. destruct (Nat.eqb_spec k p) as [->|]; [exact E|reflexivity].
  - eapply seq_trans; [apply create_ext|apply create_zero]. intros I. unfold annihilate, ket, szero. destruct (bit I p) eqn:EI; [reflexivity|]. destruct (Nat.eqb_spec (upd I p true) D) as [X|]; [|ring]. exfalso. assert (Y : bit (upd I p true) p = true) by apply bit_upd_same. rewrite X, E in Y. discriminate.
Qed.
Lemma word_stays cre ann D : NoDup cre -> NoDup ann -> word cre ann (ket D) D <> C0 -> forall k, In k cre <-> In k ann.
Proof.
  intros NC NA H. unfold word in H. destruct (lads_at true cre NC (lads false ann (ket D)) D) as (s & _ & Es). rewrite Es in H. clear Es. destruct (forallb _ cre) eqn:E1; [|now destruct H].
  destruct (lads_at false ann NA (ket D) (updl D cre (negb true))) as (s2 & _ & Es2). rewrite Es2 in H. clear Es2. destruct (forallb _ ann) eqn:E2; [|exfalso; apply H; ring]. unfold ket in H. destruct (Nat.eqb_spec (updl (updl D cre (negb true)) ann (negb false)) D) as [E|]; [|exfalso; apply H; ring]. clear H.
  rewrite forallb_forall in E1, E2. intros k. assert (EB : (if existsb (Nat.eqb k) ann then true else if existsb (Nat.eqb k) cre then false else bit D k) = bit D k) by (rewrite <- E at 2; rewrite !bit_updl; reflexivity). split; intros Hk.
  - specialize (E1 k Hk). apply Bool.eqb_prop in E1. apply existsb_in in Hk. rewrite Hk, E1 in EB. apply existsb_in. now destruct (existsb _ ann).
  - specialize (E2 k Hk). apply Bool.eqb_prop in E2. rewrite bit_updl in E2. apply existsb_in in Hk. rewrite Hk in EB. apply existsb_in. destruct (existsb _ cre); [reflexivity|]. congruence.
Qed.
Lemma hop_diag p q D : hop p q (ket D) D = if (Nat.eqb p q && bit D p)%bool then C1 else C0.
Proof.
  destruct (Nat.eqb_spec p q) as [<-|N]; cbn [andb].
  - rewrite (hop_number p D D). destruct (bit D p); [unfold ket; now rewrite Nat.eqb_refl|reflexivity].
  - destruct (Ceq_dec (hop p q (ket D) D) C0) as [E|E]; [exact E|]. exfalso. apply N. change (hop p q (ket D) D) with (ladder_act [p] [q] (ket D) D) in E. rewrite (ladder_word [p] [q] (ket D) D) in E. pose proof (word_stays [p] [q] D ltac:(repeat constructor; cbn; tauto) ltac:(repeat constructor; cbn; tauto) E) as W. destruct (proj1 (W p) (or_introl eq_refl)) as [X|[]]. congruence.
Qed.
Definition occ (D p : nat) : C := if bit D p then C1 else C0.
Lemma scatter_number p r psi : p <> r -> scatter p r r p psi == hop r r (hop p p psi).
Proof.
  intros N. unfold scatter, hop. intros I. pose proof (cre_anti p r (annihilate r (annihilate p psi)) I) as E. rewrite E. unfold sscale.
  assert (E2 : create p (annihilate r (annihilate p psi)) == sscale (- C1) (annihilate r (create p (annihilate p psi)))). { apply seq_sym. intros J. unfold sscale. rewrite (ann_cre_far p r (annihilate p psi) N J). unfold sscale. ring. }
  rewrite (create_ext r _ _ E2 I), (create_scale r _ _ I). unfold sscale. ring.
Qed.
Lemma ann_cre_ext p a b : a == b -> hop p p a == hop p p b.
Proof. intros H. unfold hop. apply create_ext, annihilate_ext, H. Qed.
Lemma scatter_value p r D : p <> r -> scatter p r r p (ket D) D = occ D p * occ D r.
Proof.
  intros N. rewrite (scatter_number p r (ket D) N D), (ann_cre_ext r _ _ (hop_number p D) D). unfold occ. destruct (bit D p).
  - rewrite (hop_number r D D). destruct (bit D r); [unfold ket; rewrite Nat.eqb_refl; ring|unfold szero; ring].
  - unfold hop. rewrite (create_ext r _ _ (annihilate_zero r) D), (create_zero r D). unfold szero. ring.
Qed.
Lemma scatter_diag p r s q D : scatter p r s q (ket D) D = occ D p * occ D r * ((if (Nat.eqb p q && Nat.eqb r s)%bool then C1 else C0) - (if (Nat.eqb p s && Nat.eqb r q)%bool then C1 else C0)).
Proof.
  destruct (Nat.eq_dec p r) as [->|N1]; [rewrite (scatter_same_cre r s q (ket D) D); unfold szero; rewrite (andb_comm (Nat.eqb r s)); ring|].
  destruct (Nat.eq_dec s q) as [->|N2]; [rewrite (scatter_same_ann p r q (ket D) D); unfold szero; ring|].
  destruct (Ceq_dec (scatter p r s q (ket D) D) C0) as [E|E].
  - destruct (Nat.eqb_spec p q) as [<-|], (Nat.eqb_spec r s) as [<-|]; cbn [andb].
    + rewrite (scatter_value p r D N1) in E. rewrite (scatter_value p r D N1). destruct (Nat.eqb_spec p r); [contradiction|]. cbn [andb]. ring.
    + rewrite E. destruct (Nat.eqb_spec r p); [congruence|]. rewrite andb_false_r. ring.
    + rewrite E. destruct (Nat.eqb_spec p r); [congruence|]. cbn [andb]. ring.
    + destruct (Nat.eqb_spec p s) as [<-|], (Nat.eqb_spec r q) as [<-|]; cbn [andb]; rewrite ?E; try ring.
      assert (X : scatter p r r p (ket D) D = C0). { unfold scatter in *. pose proof (create_ext p _ _ (create_ext r _ _ (ann_anti r p (ket D))) D) as Y. rewrite Y. rewrite (create_ext p _ _ (create_scale r (- C1) (annihilate p (annihilate r (ket D)))) D), (create_scale p _ _ D). unfold sscale. rewrite E. ring. }
      rewrite (scatter_value p r D N1) in X. rewrite X. ring.
  - assert (W := E). change (scatter p r s q (ket D) D) with (ladder_act [p; r] [s; q] (ket D) D) in W. rewrite (ladder_word [p; r] [s; q] (ket D) D) in W. assert (X1 : NoDup [p; r]) by (repeat constructor; cbn; intuition). assert (X2 : NoDup [s; q]) by (repeat constructor; cbn; intuition). pose proof (word_stays _ _ D X1 X2 W) as W2. clear W. rename W2 into W.
    destruct (proj1 (W p) (or_introl eq_refl)) as [X|[X|[]]]; destruct (proj1 (W r) (or_intror (or_introl eq_refl))) as [Y|[Y|[]]]; subst; try congruence.
    + rewrite !Nat.eqb_refl. destruct (Nat.eqb_spec p r); [congruence|]. cbn [andb].
      unfold scatter. rewrite (create_ext p _ _ (create_ext r _ _ (ann_anti p r (ket D))) D), (create_ext p _ _ (create_scale r (- C1) (annihilate r (annihilate p (ket D)))) D), (create_scale p _ _ D). unfold sscale. change (create p (create r (annihilate r (annihilate p (ket D)))) D) with (scatter p r r p (ket D) D). rewrite scatter_value by exact N1. ring.
    + rewrite !Nat.eqb_refl. destruct (Nat.eqb_spec p r); [congruence|]. cbn [andb]. rewrite scatter_value by exact N1. ring.
Qed.
(** Slater-Condon rule for the diagonal *)
Theorem electronic_diag m h g n D : (D < 2 ^ n)%nat -> inner n (ket D) (electronic m h g (ket D)) =
  Csum (fun p => Csum (fun a => RtoC (h p p) * occ D (so p a)) bits2) (seq 0 m) +
  Csum (fun p => Csum (fun r => Csum (fun a => Csum (fun b => RtoC ((g p p r r - if Nat.eqb a b then g p r r p else 0) / 2) * (occ D (so p a) * occ D (so r b))) bits2) bits2) (seq 0 m)) (seq 0 m).
Proof.
  intros L. rewrite electronic_inner. f_equal.
  - rewrite Csum_swap. apply Csum_ext. intros p Hp. apply in_seq in Hp. apply Csum_ext. intros a Ha. apply bits2_lt in Ha. rewrite (SaFermi.Csum_one _ m p); [|lia|intros q Nq; rewrite QftProofs.inner_ket by exact L; rewrite hop_diag, so_eqb by exact Ha; destruct (Nat.eqb_spec p q); [congruence|cbn [andb]; ring]].
    rewrite QftProofs.inner_ket by exact L. rewrite hop_diag, Nat.eqb_refl. reflexivity.
  - apply Csum_ext. intros p Hp. apply in_seq in Hp. apply Csum_ext. intros r Hr. apply in_seq in Hr.
    transitivity (Csum (fun s => Csum (fun q => Csum (fun a => Csum (fun b => (if (Nat.eqb p q && Nat.eqb r s)%bool then RtoC (g p q r s / 2) * (occ D (so p a) * occ D (so r b)) else C0) - (if (Nat.eqb p s && Nat.eqb r q && Nat.eqb a b)%bool then RtoC (g p q r s / 2) * (occ D (so p a) * occ D (so r b)) else C0)) bits2) bits2) (seq 0 m)) (seq 0 m)).
    { apply Csum_ext. intros s _. apply Csum_ext. intros q _. apply Csum_ext. intros a Ha. apply bits2_lt in Ha. apply Csum_ext. intros b Hb. apply bits2_lt in Hb. rewrite QftProofs.inner_ket by exact L. rewrite scatter_diag. rewrite !so_eqb by assumption. rewrite !Nat.eqb_refl, !andb_true_r. destruct (Nat.eqb p q), (Nat.eqb r s), (Nat.eqb p s), (Nat.eqb r q), (Nat.eqb_spec a b); subst; cbn [andb]; rewrite ?Nat.eqb_refl; try ring; destruct (Nat.eqb_spec b a); try congruence; ring. }
    set (X := fun q s => Csum (fun a => Csum (fun b => RtoC (g p q r s / 2) * (occ D (so p a) * occ D (so r b))) bits2) bits2). set (Y := fun q s => Csum (fun a => Csum (fun b => if Nat.eqb a b then RtoC (g p q r s / 2) * (occ D (so p a) * occ D (so r b)) else C0) bits2) bits2).
    transitivity (Csum (fun s => Csum (fun q => (if (Nat.eqb p q && Nat.eqb r s)%bool then X q s else C0) + - C1 * (if (Nat.eqb p s && Nat.eqb r q)%bool then Y q s else C0)) (seq 0 m)) (seq 0 m)).
    { apply Csum_ext. intros s _. apply Csum_ext. intros q _. unfold X, Y, bits2. rewrite !Csum_cons, !Csum_nil. cbn [Nat.eqb]. rewrite !andb_false_r, !andb_true_r. destruct (Nat.eqb p q), (Nat.eqb r s), (Nat.eqb p s), (Nat.eqb r q); cbn [andb]; ring. }
    rewrite (Csum_ext _ (fun s => Csum (fun q => if (Nat.eqb p q && Nat.eqb r s)%bool then X q s else C0) (seq 0 m) + - C1 * Csum (fun q => if (Nat.eqb p s && Nat.eqb r q)%bool then Y q s else C0) (seq 0 m))) by (intros s _; rewrite Csum_add, Csum_mul_l; reflexivity). rewrite Csum_add, Csum_mul_l.
    assert (EX : Csum (fun s => Csum (fun q => if (Nat.eqb p q && Nat.eqb r s)%bool then X q s else C0) (seq 0 m)) (seq 0 m) = X p r).
    { rewrite (SaFermi.Csum_one _ m r); [|lia|intros s Ns; apply Csum_zero; intros q _; destruct (Nat.eqb_spec r s); [congruence|now rewrite andb_false_r]]. rewrite (SaFermi.Csum_one _ m p); [|lia|intros q Nq; destruct (Nat.eqb_spec p q); [congruence|reflexivity]]. now rewrite !Nat.eqb_refl. }
    assert (EY : Csum (fun s => Csum (fun q => if (Nat.eqb p s && Nat.eqb r q)%bool then Y q s else C0) (seq 0 m)) (seq 0 m) = Y r p).
    { rewrite (SaFermi.Csum_one _ m p); [|lia|intros s Ns; apply Csum_zero; intros q _; destruct (Nat.eqb_spec p s); [congruence|reflexivity]]. rewrite (SaFermi.Csum_one _ m r); [|lia|intros q Nq; destruct (Nat.eqb_spec r q); [congruence|now rewrite andb_false_r]]. now rewrite !Nat.eqb_refl. }
    rewrite EX, EY. unfold X, Y, bits2. rewrite !Csum_cons, !Csum_nil. cbn [Nat.eqb]. generalize (occ D (so p 0)) (occ D (so p 1)) (occ D (so r 0)) (occ D (so r 1)). intros. apply C_ext; cbn; field.
Qed.
