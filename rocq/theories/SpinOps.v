(** What the spin operators do to a state. *)
From Coq Require Import Reals String List Arith Lia Bool Lra Permutation Sorted ZArith NArith FunctionalExtensionality.
From Verif Require Import CBase Result Bits Spec OpSpec SQSpec GateModel ComputerModel SafeProofs CircuitModel PauliProofs OperatorModel OperatorProofs OrderProofs PauliIndep SQModel SQPhase SQProofs JWProofs PropOperator PropSQ SpinModel SpinSpec SpinProofs.
From Verif Require Import SaSpec SaFermi FermiProofs.
Import ListNotations.
Local Open Scope C_scope.

Lemma range2_pairs m : range2 (2 * m) = map (fun p => 2 * p)%nat (seq 0 m) /\ range2 (2 * m + 1) = map (fun p => 2 * p)%nat (seq 0 (S m)).
Proof.
  assert (H : range2 (2 * m) = map (fun p => 2 * p)%nat (seq 0 m)).
  { unfold range2. induction m as [|m IH]; [reflexivity|]. replace (2 * S m)%nat with (2 * m + 1 + 1)%nat by lia. rewrite !seq_app, !filter_app, IH.
    rewrite (seq_S m 0), map_app. cbn [seq map app filter Nat.add]. rewrite app_nil_r || idtac.
    replace (Nat.even (2 * m)) with true by (symmetry; apply Nat.even_spec; exists m; reflexivity).
    replace (Nat.even (2 * m + 1)) with false by (rewrite Nat.even_add; replace (Nat.even (2 * m)) with true by (symmetry; apply Nat.even_spec; exists m; reflexivity); reflexivity).
    rewrite app_nil_r. reflexivity. }
  split; [exact H|]. unfold range2 in *. rewrite seq_app, filter_app, H, (seq_S m 0), map_app. cbn [seq map filter Nat.add].
  replace (Nat.even (2 * m)) with true by (symmetry; apply Nat.even_spec; exists m; reflexivity). reflexivity.
Qed.
Lemma range2_half n : range2 n = map (fun p => 2 * p)%nat (seq 0 ((n + 1) / 2)).
Proof.
  pose proof (Nat.div_mod n 2 ltac:(lia)) as E. set (m := (n / 2)%nat) in *. assert (HB : (n mod 2 < 2)%nat) by (apply Nat.mod_upper_bound; lia).
  destruct (range2_pairs m) as [H1 H2]. destruct (Nat.eq_dec (n mod 2) 0) as [E0|E0].
  - replace n with (2 * m)%nat by lia. rewrite H1. replace ((2 * m + 1) / 2)%nat with m; [reflexivity|]. apply (Nat.div_unique (2 * m + 1) 2 m 1); lia.
  - replace n with (2 * m + 1)%nat by lia. rewrite H2. replace ((2 * m + 1 + 1) / 2)%nat with (S m); [reflexivity|]. apply (Nat.div_unique (2 * m + 1 + 1) 2 (S m) 0); lia.
Qed.
Lemma fold_snoc_map {A B} (f : A -> B) l : forall acc, fold_left (fun o i => (o ++ [f i])%list) l acc = (acc ++ map f l)%list.
Proof. induction l as [|x l IH]; intros acc; cbn [fold_left map]; [rewrite app_nil_r; reflexivity|]. rewrite IH, <- app_assoc. reflexivity. Qed.
Lemma fold_snoc2 {A B} (f g : A -> B) l : forall acc, fold_left (fun o i => ((o ++ [f i]) ++ [g i])%list) l acc = (acc ++ flat_map (fun i => [f i; g i]) l)%list.
Proof. induction l as [|x l IH]; intros acc; cbn [fold_left flat_map]; [rewrite app_nil_r; reflexivity|]. rewrite IH, <- !app_assoc. reflexivity. Qed.
Lemma sq_spin_z_eq n : sq_spin_z n = flat_map (fun p => [((mkC (1/2) 0, [2 * p]), [2 * p]); ((mkC (-1/2) 0, [2 * p + 1]), [2 * p + 1])]%nat) (seq 0 ((n + 1) / 2)).
Proof.
  unfold sq_spin_z, sq_add_term. rewrite (fold_snoc2 (fun i => ((mkC (1/2) 0, [i]), [i])) (fun i => ((mkC (-1/2) 0, [(i + 1)%nat]), [(i + 1)%nat]))), range2_half. cbn [app].
  rewrite flat_map_concat_map, map_map, <- flat_map_concat_map. reflexivity.
Qed.
Lemma sq_lowering_eq n : sq_spin_lowering n = map (fun p => ((C1, [2 * p + 1]), [2 * p])%nat) (seq 0 ((n + 1) / 2)).
Proof. unfold sq_spin_lowering, sq_add_term. rewrite (fold_snoc_map (fun i => ((C1, [(i + 1)%nat]), [i]))), range2_half. cbn [app]. rewrite map_map. reflexivity. Qed.
Lemma sq_raising_eq n : sq_spin_raising n = map (fun p => ((C1, [2 * p]), [2 * p + 1])%nat) (seq 0 ((n + 1) / 2)).
Proof. unfold sq_spin_raising, sq_add_term. rewrite (fold_snoc_map (fun i => ((C1, [i]), [(i + 1)%nat]))), range2_half. cbn [app]. rewrite map_map. reflexivity. Qed.

(** ---- action ---- *)
Lemma number_act p psi I : create p (annihilate p psi) I = if bit I p then psi I else C0.
Proof.
  unfold create, annihilate. destruct (bit I p) eqn:E; [|reflexivity]. rewrite bit_upd, Nat.eqb_refl.
  assert (HO : forall k, (k <= p)%nat -> odd_below (upd I p false) k = odd_below I k).
  { induction k as [|k IH]; intros Hk; [reflexivity|]. cbn [odd_below]. rewrite IH by lia. f_equal. rewrite bit_upd. destruct (Nat.eqb_spec k p); [lia|reflexivity]. }
  rewrite HO by lia. assert (HU : upd (upd I p false) p true = I).
  { apply bits_ext. intros k. rewrite !bit_upd. destruct (Nat.eqb_spec k p) as [->|]; [symmetry; exact E|reflexivity]. }
  rewrite HU. pose proof (sgn_sgn (odd_below I p)) as HS. replace (sgn (odd_below I p) * (sgn (odd_below I p) * psi I)) with (sgn (odd_below I p) * sgn (odd_below I p) * psi I) by ring. rewrite HS. ring.
Qed.
Lemma count_sum (f : nat -> bool) c x l : Csum (fun p => c * (if f p then x else C0)) l = RtoC (INR (length (filter f l))) * (c * x).
Proof.
  induction l as [|p l IH]; [rewrite Csum_nil; cbn; csolve|]. rewrite Csum_cons, IH. cbn [filter]. destruct (f p); [|ring]. cbn [length]. rewrite S_INR. unfold RtoC. apply C_ext; cbn; ring.
Qed.
Lemma spin_z_act n psi : fermi_act (sq_spin_z n) psi == spin_z ((n + 1) / 2) psi.
Proof.
  intros I. rewrite sq_spin_z_eq. unfold spin_z, sz_value, n_up, n_down. set (m := ((n + 1) / 2)%nat).
  transitivity (Csum (fun p => mkC (1/2) 0 * (if bit I (2 * p) then psi I else C0)) (seq 0 m) + Csum (fun p => mkC (-1/2) 0 * (if bit I (2 * p + 1) then psi I else C0)) (seq 0 m)).
  - generalize (seq 0 m). induction l as [|p l IH]; [unfold fermi_act; cbn [flat_map]; rewrite !Csum_nil; ring|]. cbn [flat_map app]. unfold fermi_act in *. rewrite !Csum_cons. rewrite IH.
    unfold fcoef, fcre, fann; cbn [fst snd]. unfold ladder_act; cbn [fold_right]. rewrite !number_act. ring.
  - rewrite !count_sum. unfold RtoC. apply C_ext; cbn; field.
Qed.
Lemma plus_act n psi : fermi_act (sq_spin_raising n) psi == spin_plus ((n + 1) / 2) psi.
Proof.
  intros I. rewrite sq_raising_eq. unfold fermi_act, spin_plus. rewrite Csum_map. apply Csum_ext. intros p _. unfold fcoef, fcre, fann, ladder_act; cbn [fst snd fold_right]. ring.
Qed.
Lemma minus_act n psi : fermi_act (sq_spin_lowering n) psi == spin_minus ((n + 1) / 2) psi.
Proof.
  intros I. rewrite sq_lowering_eq. unfold fermi_act, spin_minus. rewrite Csum_map. apply Csum_ext. intros p _. unfold fcoef, fcre, fann, ladder_act; cbn [fst snd fold_right]. ring.
Qed.

(** ---- algebra ---- *)
Lemma Csum_number (f : nat -> nat) m psi I : Csum (fun p => create (f p) (annihilate (f p) psi) I) (seq 0 m) = RtoC (INR (length (filter (fun p => bit I (f p)) (seq 0 m)))) * psi I.
Proof.
  rewrite (Csum_ext _ (fun p => C1 * (if bit I (f p) then psi I else C0))) by (intros p _; rewrite number_act; ring). rewrite count_sum. ring.
Qed.
(** [S+, S-] = 2 S_z *)
Lemma plus_minus m psi I : spin_plus m (spin_minus m psi) I = spin_minus m (spin_plus m psi) I + RtoC 2 * spin_z m psi I.
Proof.
  assert (HS : spin_plus m (spin_minus m psi) I = Csum (fun q => spin_plus m (create (2 * q + 1) (annihilate (2 * q) psi)) I) (seq 0 m)).
  { unfold spin_plus at 1. unfold spin_plus. rewrite Csum_swap. apply Csum_ext. intros p _. unfold spin_minus.
    rewrite (ann_csum (2 * p + 1) (fun q => create (2 * q + 1) (annihilate (2 * q) psi))), (create_csum (2 * p) (fun q => annihilate (2 * p + 1) (create (2 * q + 1) (annihilate (2 * q) psi)))). reflexivity. }
  rewrite HS. clear HS.
  transitivity (Csum (fun q => create (2 * q) (annihilate (2 * q) psi) I) (seq 0 m) + (Csum (fun q => create (2 * q + 1) (annihilate (2 * q) (spin_plus m psi)) I) (seq 0 m) + (- C1) * Csum (fun q => create (2 * q + 1) (annihilate (2 * q + 1) psi) I) (seq 0 m))).
  - rewrite <- Csum_mul_l, <- !Csum_add. apply Csum_ext. intros q Hq. apply in_seq in Hq. rewrite plus_flip, flip_create, flip_ann, create_sum. unfold sadd at 1 2.
    rewrite (Csum_one _ m q) by (try lia; intros k Nk; nateq; reflexivity). rewrite Nat.eqb_refl.
    rewrite (eqs (fun I0 => Csum (fun p0 => - (if (2 * p0 =? 2 * q)%nat then annihilate (2 * p0 + 1) psi else szero) I0) (seq 0 m)) (ssub szero (annihilate (2 * q + 1) psi))).
    2:{ intros J. rewrite (Csum_one _ m q ltac:(lia)); [rewrite Nat.eqb_refl; unfold ssub, szero; ring | intros k Nk; nateq; unfold szero; ring]. }
    rewrite create_sub, create_zero. unfold ssub, szero. ring.
  - rewrite !Csum_number. change (Csum (fun q => create (2 * q + 1) (annihilate (2 * q) (spin_plus m psi)) I) (seq 0 m)) with (spin_minus m (spin_plus m psi) I).
    unfold spin_z, sz_value, n_up, n_down. unfold RtoC. apply C_ext; cbn [Re Im Cadd Cmul Cneg C1]; field.
Qed.
Lemma spin_plus_add m a b I : spin_plus m (sadd a b) I = spin_plus m a I + spin_plus m b I.
Proof. rewrite plus_flip, flip_add. reflexivity. Qed.
Lemma spin_minus_add m a b I : spin_minus m (sadd a b) I = spin_minus m a I + spin_minus m b I.
Proof. rewrite minus_flip, flip_add. reflexivity. Qed.
Lemma spin_plus_scale m k a I : spin_plus m (sscale k a) I = k * spin_plus m a I.
Proof. rewrite plus_flip, flip_scale. reflexivity. Qed.
Lemma spin_minus_scale m k a I : spin_minus m (sscale k a) I = k * spin_minus m a I.
Proof. rewrite minus_flip, flip_scale. reflexivity. Qed.
Lemma spin_squared_eq m psi I : spin_squared m psi I = spin_minus m (spin_plus m psi) I + spin_z m psi I + spin_z m (spin_z m psi) I.
Proof.
  unfold spin_squared.
  assert (EX : spin_x m psi = sscale (RtoC (1/2)) (sadd (spin_plus m psi) (spin_minus m psi))) by reflexivity.
  assert (EY : spin_y m psi = sscale (mkC 0 (-1/2)) (sadd (spin_plus m psi) (sscale (- C1) (spin_minus m psi)))).
  { apply eqs. intros J. unfold spin_y, sscale, sadd. ring. }
  unfold spin_x at 1. unfold spin_y at 1. rewrite EX, EY.
  rewrite !spin_plus_scale, !spin_minus_scale, !spin_plus_add, !spin_minus_add, !spin_plus_scale, !spin_minus_scale, plus_minus.
  generalize (spin_plus m (spin_plus m psi) I) (spin_minus m (spin_minus m psi) I) (spin_minus m (spin_plus m psi) I) (spin_z m psi I) (spin_z m (spin_z m psi) I). intros a b c d e.
  unfold RtoC. apply C_ext; cbn [Re Im Cadd Cmul Cneg Csub C1]; field.
Qed.
(** ---- adjoints ---- *)
Lemma inner_csum_r n a (f : nat -> state) l : inner n a (fun I => Csum (fun p => f p I) l) = Csum (fun p => inner n a (f p)) l.
Proof. unfold inner. rewrite Csum_swap. apply Csum_ext. intros I _. rewrite Csum_mul_l. reflexivity. Qed.
Lemma inner_csum_l n b (f : nat -> state) l : inner n (fun I => Csum (fun p => f p I) l) b = Csum (fun p => inner n (f p) b) l.
Proof. rewrite inner_conj, inner_csum_r, Csum_conj. apply Csum_ext. intros p _. symmetry. apply inner_conj. Qed.
Lemma inner_plus m n a b : (2 * m <= n)%nat -> inner n a (spin_plus m b) = inner n (spin_minus m a) b.
Proof.
  intros H. unfold spin_plus, spin_minus. rewrite (inner_csum_r n a (fun p => create (2 * p) (annihilate (2 * p + 1) b))), (inner_csum_l n b (fun p => create (2 * p + 1) (annihilate (2 * p) a))).
  apply Csum_ext. intros p Hp. apply in_seq in Hp. rewrite inner_create by lia. rewrite inner_annihilate by lia. reflexivity.
Qed.
(** ---- [S_z, S+] = S+ ---- *)
Lemma count_upd (f : nat -> nat) m p I b : (p < m)%nat -> (forall a c, f a = f c -> a = c) -> bit I (f p) = negb b ->
  length (filter (fun k => bit (upd I (f p) b) (f k)) (seq 0 m)) = (if b then S (length (filter (fun k => bit I (f k)) (seq 0 m))) else Nat.pred (length (filter (fun k => bit I (f k)) (seq 0 m)))) /\
  (b = false -> (0 < length (filter (fun k => bit I (f k)) (seq 0 m)))%nat).
Proof.
  intros Hp HI HB. replace m with (p + (1 + (m - p - 1)))%nat by lia. rewrite !seq_app, !filter_app, !app_length. cbn [seq filter Nat.add].
  assert (HE : forall l, ~ In p l -> filter (fun k => bit (upd I (f p) b) (f k)) l = filter (fun k => bit I (f k)) l).
  { intros l Hl. induction l as [|x l IH]; [reflexivity|]. cbn [filter]. rewrite IH by (intros H; apply Hl; right; exact H). rewrite bit_upd.
    destruct (Nat.eqb_spec (f x) (f p)) as [E|_]; [|reflexivity]. exfalso. apply Hl. left. symmetry. symmetry. apply HI, E. }
  rewrite (HE (seq 0 p)) by (rewrite in_seq; lia). rewrite (HE (seq (p + 1) _)) by (rewrite in_seq; lia). rewrite bit_upd, Nat.eqb_refl, HB. destruct b; cbn [negb length app]; split; try discriminate; lia.
Qed.
Lemma n_up_other m I q b : (forall p, q <> 2 * p)%nat -> n_up m (upd I q b) = n_up m I.
Proof. intros H. unfold n_up. f_equal. apply filter_ext. intros k. rewrite bit_upd. destruct (Nat.eqb_spec (2 * k) q); [exfalso; apply (H k); auto|reflexivity]. Qed.
Lemma n_down_other m I q b : (forall p, q <> 2 * p + 1)%nat -> n_down m (upd I q b) = n_down m I.
Proof. intros H. unfold n_down. f_equal. apply filter_ext. intros k. rewrite bit_upd. destruct (Nat.eqb_spec (2 * k + 1) q); [exfalso; apply (H k); auto|reflexivity]. Qed.
Lemma sz_plus m p I : (p < m)%nat -> bit I (2 * p) = true -> bit I (2 * p + 1) = false ->
  sz_value m (upd (upd I (2 * p) false) (2 * p + 1) true) = (sz_value m I - 1)%R.
Proof.
  intros Hp H1 H2. unfold sz_value. rewrite n_up_other by lia.
  unfold n_up at 1. destruct (count_upd (fun k => 2 * k)%nat m p I false Hp ltac:(cbv beta; intros; lia) H1) as [E1 E1']. cbv beta in E1. rewrite E1.
  unfold n_down at 1. destruct (count_upd (fun k => 2 * k + 1)%nat m p (upd I (2 * p) false) true Hp ltac:(cbv beta; intros; lia)) as [E2 _].
  { rewrite bit_upd. destruct (Nat.eqb_spec (2 * p + 1) (2 * p)); [lia|exact H2]. }
  cbv beta in E2. rewrite E2. fold (n_down m (upd I (2 * p) false)). rewrite n_down_other by lia. fold (n_up m I). rewrite S_INR.
  specialize (E1' eq_refl). cbv beta in E1'. fold (n_up m I) in E1'. replace (INR (n_up m I)) with (INR (Nat.pred (n_up m I)) + 1)%R by (rewrite <- S_INR; f_equal; lia). lra.
Qed.
Lemma z_plus m psi I : spin_z m (spin_plus m psi) I = spin_plus m (spin_z m psi) I + spin_plus m psi I.
Proof.
  unfold spin_z at 1. unfold spin_plus. rewrite <- Csum_mul_l, <- Csum_add. apply Csum_ext. intros p Hp. apply in_seq in Hp.
  unfold create, annihilate, spin_z. destruct (bit I (2 * p)) eqn:E1; [|ring]. destruct (bit (upd I (2 * p) false) (2 * p + 1)) eqn:E2; [ring|].
  rewrite sz_plus; [|lia|exact E1|rewrite bit_upd in E2; destruct (Nat.eqb_spec (2 * p + 1) (2 * p)); [lia|exact E2]].
  generalize (sgn (odd_below I (2 * p))) (sgn (odd_below (upd I (2 * p) false) (2 * p + 1))) (psi (upd (upd I (2 * p) false) (2 * p + 1) true)) (sz_value m I). intros. unfold RtoC. apply C_ext; cbn [Re Im Cadd Cmul]; ring.
Qed.
Lemma sz_minus m p I : (p < m)%nat -> bit I (2 * p) = false -> bit I (2 * p + 1) = true ->
  sz_value m (upd (upd I (2 * p + 1) false) (2 * p) true) = (sz_value m I + 1)%R.
Proof.
  intros Hp H1 H2. set (K := upd (upd I (2 * p + 1) false) (2 * p) true).
  assert (B1 : bit K (2 * p) = true) by (unfold K; rewrite bit_upd, Nat.eqb_refl; reflexivity).
  assert (B2 : bit K (2 * p + 1) = false) by (unfold K; rewrite !bit_upd; destruct (Nat.eqb_spec (2 * p + 1) (2 * p)); [lia|]; rewrite Nat.eqb_refl; reflexivity).
  pose proof (sz_plus m p K Hp B1 B2) as E. replace (upd (upd K (2 * p) false) (2 * p + 1) true) with I in E; [lra|].
  apply bits_ext. intros k. unfold K. rewrite !bit_upd. destruct (Nat.eqb_spec k (2 * p + 1)) as [->|]; [exact H2|]. destruct (Nat.eqb_spec k (2 * p)) as [->|]; [exact H1|reflexivity].
Qed.
Lemma z_minus m psi I : spin_z m (spin_minus m psi) I = spin_minus m (spin_z m psi) I - spin_minus m psi I.
Proof.
  replace (spin_minus m (spin_z m psi) I - spin_minus m psi I) with (spin_minus m (spin_z m psi) I + (- C1) * spin_minus m psi I) by ring.
  unfold spin_z at 1. unfold spin_minus. rewrite <- !Csum_mul_l, <- Csum_add. apply Csum_ext. intros p Hp. apply in_seq in Hp.
  unfold create, annihilate, spin_z. destruct (bit I (2 * p + 1)) eqn:E1; [|ring]. destruct (bit (upd I (2 * p + 1) false) (2 * p)) eqn:E2; [ring|].
  rewrite sz_minus; [|lia| |exact E1]; [|rewrite bit_upd in E2; destruct (Nat.eqb_spec (2 * p) (2 * p + 1)); [lia|exact E2]].
  generalize (sgn (odd_below I (2 * p + 1))) (sgn (odd_below (upd I (2 * p + 1) false) (2 * p))) (psi (upd (upd I (2 * p + 1) false) (2 * p) true)) (sz_value m I). intros. unfold RtoC. apply C_ext; cbn [Re Im Cadd Cmul Cneg C1]; ring.
Qed.
(** ---- high-spin and closed-shell determinants ---- *)
Lemma spin_z_ket m D : spin_z m (ket D) == sscale (RtoC (sz_value m D)) (ket D).
Proof. intros I. unfold spin_z, sscale, ket. destruct (Nat.eqb_spec I D) as [->|]; [reflexivity|ring]. Qed.
Lemma plus_high_spin m D : (forall p, (p < m)%nat -> bit D (2 * p + 1) = true -> bit D (2 * p) = true) -> spin_plus m (ket D) == szero.
Proof.
  intros H I. unfold spin_plus, szero. apply Csum_zero. intros p Hp. apply in_seq in Hp. unfold create, annihilate, ket.
  destruct (bit I (2 * p)) eqn:E1; [|reflexivity]. destruct (bit (upd I (2 * p) false) (2 * p + 1)) eqn:E2; [ring|].
  destruct (Nat.eqb_spec (upd (upd I (2 * p) false) (2 * p + 1) true) D) as [E|]; [|ring]. exfalso.
  assert (B1 : bit D (2 * p + 1) = true) by (rewrite <- E, bit_upd, Nat.eqb_refl; reflexivity). apply H in B1; [|lia].
  rewrite <- E, !bit_upd in B1. destruct (Nat.eqb_spec (2 * p) (2 * p + 1)); [lia|]. rewrite Nat.eqb_refl in B1. discriminate.
Qed.
Lemma spin_plus_ext m a b : a == b -> spin_plus m a == spin_plus m b.
Proof. intros H I. apply Csum_ext. intros p _. apply create_ext, annihilate_ext, H. Qed.
Lemma spin_minus_ext m a b : a == b -> spin_minus m a == spin_minus m b.
Proof. intros H I. apply Csum_ext. intros p _. apply create_ext, annihilate_ext, H. Qed.
Lemma spin_z_ext m a b : a == b -> spin_z m a == spin_z m b.
Proof. intros H I. unfold spin_z. rewrite (H I). reflexivity. Qed.
Lemma squared_high_spin m D : (forall p, (p < m)%nat -> bit D (2 * p + 1) = true -> bit D (2 * p) = true) ->
  spin_squared m (ket D) == sscale (RtoC (sz_value m D * (sz_value m D + 1))) (ket D).
Proof.
  intros H I. rewrite spin_squared_eq. rewrite (spin_minus_ext m _ _ (plus_high_spin m D H) I).
  replace (spin_minus m szero I) with C0 by (unfold spin_minus; symmetry; apply Csum_zero; intros p _; rewrite ann_zero, create_zero; reflexivity).
  rewrite (spin_z_ext m _ _ (spin_z_ket m D) I), (spin_z_ket m D I). unfold spin_z, sscale, ket. destruct (Nat.eqb_spec I D) as [->|]; [|ring].
  unfold RtoC. apply C_ext; cbn [Re Im Cadd Cmul C1 C0]; ring.
Qed.
(** ---- the constructed qubit operators ---- *)
Lemma dy_half : dy 1 (mkC (1/2) 0). Proof. exists 1%Z, 0%Z. apply C_ext; cbn; field. Qed.
Lemma dy_mhalf : dy 1 (mkC (-1/2) 0). Proof. exists (-1)%Z, 0%Z. apply C_ext; cbn; field. Qed.
Definition good_op (k m : nat) (q : qop) (f : state -> state) : Prop :=
  canonical_op q /\ NoDup (map snd q) /\ Forall (fun t => 1e-12 < Cabs (fst t))%R q /\ dyop k q /\ in_reg (2 * m) q /\ forall psi, op_act q psi == f psi.
Lemma spin_z_op srt n : legal_sort srt -> exists q, total_spin_z srt n = Ok q /\ good_op 3 ((n + 1) / 2) q (spin_z ((n + 1) / 2)).
Proof.
  intros HS. destruct (jw_exact srt 2 1 (sq_spin_z n) HS ltac:(lia)) as (k & q & E & HC & HN & HB & HD & HR & HA).
  { rewrite sq_spin_z_eq. apply Forall_forall. intros t Ht. apply in_flat_map in Ht. destruct Ht as (p & _ & [<-|[<-|[]]]); (split; [repeat constructor; intros []|]); (split; [repeat constructor; intros []|]); (split; [cbn; lia|]); [apply dy_half|apply dy_mhalf]. }
  exists q. unfold total_spin_z. rewrite E. split; [reflexivity|]. split; [exact HC|]. split; [exact HN|]. split; [exact HB|]. split; [exact HD|]. split.
  - apply HR. rewrite sq_spin_z_eq. apply Forall_forall. intros t Ht. apply in_flat_map in Ht. destruct Ht as (p & Hp & [<-|[<-|[]]]); apply in_seq in Hp; set (mm := ((n + 1) / 2)%nat) in *; clearbody mm; split; (constructor; [cbn; lia|constructor]).
  - intros psi I. rewrite <- (HA psi I). apply spin_z_act.
Qed.
Lemma spin_minus_op srt n : legal_sort srt -> exists q, total_spin_lowering srt n = Ok q /\ good_op 2 ((n + 1) / 2) q (spin_minus ((n + 1) / 2)).
Proof.
  intros HS. destruct (jw_exact srt 2 0 (sq_spin_lowering n) HS ltac:(lia)) as (k & q & E & HC & HN & HB & HD & HR & HA).
  { rewrite sq_lowering_eq. apply Forall_map, Forall_forall. intros p _. (split; [repeat constructor; intros []|]); (split; [repeat constructor; intros []|]); (split; [cbn; lia|]). apply dy_C1. }
  exists q. unfold total_spin_lowering. rewrite E. split; [reflexivity|]. split; [exact HC|]. split; [exact HN|]. split; [exact HB|]. split; [exact HD|]. split.
  - apply HR. rewrite sq_lowering_eq. apply Forall_map, Forall_forall. intros p Hp. apply in_seq in Hp. set (mm := ((n + 1) / 2)%nat) in *; clearbody mm; split; (constructor; [cbn; lia|constructor]).
  - intros psi I. rewrite <- (HA psi I). apply minus_act.
Qed.
Lemma spin_plus_op srt n : legal_sort srt -> exists q, total_spin_raising srt n = Ok q /\ good_op 2 ((n + 1) / 2) q (spin_plus ((n + 1) / 2)).
Proof.
  intros HS. destruct (jw_exact srt 2 0 (sq_spin_raising n) HS ltac:(lia)) as (k & q & E & HC & HN & HB & HD & HR & HA).
  { rewrite sq_raising_eq. apply Forall_map, Forall_forall. intros p _. (split; [repeat constructor; intros []|]); (split; [repeat constructor; intros []|]); (split; [cbn; lia|]). apply dy_C1. }
  exists q. unfold total_spin_raising. rewrite E. split; [reflexivity|]. split; [exact HC|]. split; [exact HN|]. split; [exact HB|]. split; [exact HD|]. split.
  - apply HR. rewrite sq_raising_eq. apply Forall_map, Forall_forall. intros p Hp. apply in_seq in Hp. set (mm := ((n + 1) / 2)%nat) in *; clearbody mm; split; (constructor; [cbn; lia|constructor]).
  - intros psi I. rewrite <- (HA psi I). apply plus_act.
Qed.
Definition keeps_eq (f : state -> state) : Prop := forall a b, a == b -> f a == f b.
Lemma good_product j k m a b f g : (j + k <= 39)%nat -> keeps_eq f -> good_op j m a f -> good_op k m b g ->
  exists p, operator_product (op_add_op [] a) b true true = Ok p /\ good_op (j + k) m p (fun psi => f (g psi)).
Proof.
  intros HL Hf (A1 & A2 & A3 & A4 & A5 & A6) (B1 & B2 & B3 & B4 & B5 & B6). unfold op_add_op; cbn [app].
  destruct (product_exact j k a b HL (canonical_pauli_op _ A1) (canonical_pauli_op _ B1) A4 B4) as (p & E & HC & HD & (HN & HB) & HR & HW).
  exists p. split; [exact E|]. split; [exact HC|]. split; [exact HN|]. split; [exact HB|]. split; [exact HD|]. split; [apply HR; assumption|].
  intros psi I. rewrite <- (wop_op p psi (canonical_distinct p HC) I), (HW psi I), (wop_op a _ (canonical_distinct a A1) I), (A6 _ I).
  apply Hf. intros J. rewrite (wop_op b psi (canonical_distinct b B1) J). apply B6.
Qed.
Lemma good_simplify k m a f : (k <= 39)%nat -> pauli_op a -> dyop k a -> in_reg (2 * m) a -> (forall psi, wop a psi == f psi) ->
  exists p, op_simplify true a = Ok p /\ good_op k m p f.
Proof.
  intros HL HP HD HR HA. destruct (simplify_exact k a HL HP HD) as (p & E & HC & HD' & HR' & HW).
  destruct (simplify_small true a HP) as (p' & dr & E' & _ & HN & _ & _ & HB & _). assert (p' = p) by congruence. subst p'.
  exists p. split; [exact E|]. split; [exact HC|]. split; [exact HN|]. split; [exact (HB eq_refl)|]. split; [exact HD'|]. split; [apply HR', HR|].
  intros psi I. rewrite <- (wop_op p psi (canonical_distinct p HC) I), <- (HW psi I). apply HA.
Qed.
Lemma spin_squared_op srt n : legal_sort srt -> exists q, total_spin_squared srt n = Ok q /\ good_op 6 ((n + 1) / 2) q (spin_squared ((n + 1) / 2)).
Proof.
  intros HS. set (m := ((n + 1) / 2)%nat). destruct (spin_z_op srt n HS) as (z & Ez & Gz). destruct (spin_minus_op srt n HS) as (q & Eq & Gq). destruct (spin_plus_op srt n HS) as (r & Er & Gr). fold m in Gz, Gq, Gr.
  unfold total_spin_squared. rewrite Ez; cbn [bind]. rewrite Eq; cbn [bind]. rewrite Er; cbn [bind].
  destruct (good_product 2 2 m q r _ _ ltac:(lia) (spin_minus_ext m) Gq Gr) as (p1 & E1 & G1). rewrite E1; cbn [bind].
  destruct (good_product 3 3 m z z _ _ ltac:(lia) (spin_z_ext m) Gz Gz) as (p2 & E2 & G2). rewrite E2; cbn [bind].
  destruct G1 as (A1 & A2 & A3 & A4 & A5 & A6). destruct G2 as (B1 & B2 & B3 & B4 & B5 & B6). destruct Gz as (Z1 & Z2 & Z3 & Z4 & Z5 & Z6).
  unfold op_add_op. apply good_simplify.
  - lia.
  - repeat (apply Forall_app; split); apply canonical_pauli_op; assumption.
  - repeat (apply Forall_app; split); [apply (dyop_mono (2 + 2))|apply (dyop_mono 3)|]; try lia; assumption.
  - repeat (apply Forall_app; split); assumption.
  - intros psi I. rewrite (wop_app _ _ psi I). unfold sadd. rewrite (wop_app _ _ psi I). unfold sadd.
    rewrite (wop_op p1 psi (canonical_distinct p1 A1) I), (wop_op z psi (canonical_distinct z Z1) I), (wop_op p2 psi (canonical_distinct p2 B1) I), (A6 psi I), (Z6 psi I), (B6 psi I).
    symmetry. apply spin_squared_eq.
Qed.
