(** direct_pauli_circ_exp_val: the block-wise OpenMP expectation value. *)
From Coq Require Import Reals String List Arith Lia Bool Lra Permutation.
From Verif Require Import CBase Result Bits Spec GateModel ComputerModel CircuitModel OperatorModel SparseModel MeasureModel OpSpec
  ApplyProofs SafeProofs GateProofs LibProofs CleanProofs SimProofs PauliProofs PauliIdx SparseProofs SparseApply MeasureProofs.
Import ListNotations.
Local Open Scope string_scope.

(** *** index form of a Pauli string *)
Fixpoint Cprod {A} (f : A -> C) (l : list A) : C := match l with [] => C1 | x :: r => (f x * Cprod f r)%C end.
Lemma Cprod_ext {A} (f g : A -> C) l : (forall x, In x l -> f x = g x) -> Cprod f l = Cprod g l.
Proof. induction l as [|x l IH]; intros H; [reflexivity|]. cbn. rewrite IH, (H x (or_introl eq_refl)); [reflexivity|]. intros; apply H; right; assumption. Qed.
Fixpoint perm (gs : list gate) (I : nat) : nat := match gs with [] => I | g :: r => pidx (glabel g) (gtarget g) (perm r I) end.
Definition phs (gs : list gate) (I : nat) : C := Cprod (fun g => pph (glabel g) (gtarget g) I) gs.
Lemma perm_bit gs I k : ~ In k (map gtarget gs) -> bit (perm gs I) k = bit I k.
Proof.
  induction gs as [|g r IH]; cbn [perm map In]; intros H; [reflexivity|]. unfold pidx. destruct (_ || _); [|apply IH; tauto].
  rewrite bit_flip. destruct (Nat.eqb_spec k (gtarget g)); [subst; exfalso; apply H; left; reflexivity|]. apply IH; tauto.
Qed.
Lemma pph_bit s t I J : bit I t = bit J t -> pph s t I = pph s t J.
Proof. intros H. unfold pph. rewrite H. reflexivity. Qed.
Lemma string_idx gs : Forall pauli_gate gs -> NoDup (map gtarget gs) -> forall psi I, circ_act gs psi I = (phs gs I * psi (perm gs I))%C.
Proof.
  induction gs as [|g r IH]; intros HP HN psi I.
  - unfold circ_act, phs; cbn. ring.
  - inversion HP as [|? ? Hg HP']; inversion HN as [|? ? Hn HN']; subst. cbn [map] in *. rewrite circ_act_cons, IH by assumption.
    rewrite (pauli_idx g psi _ Hg). unfold phs. cbn [Cprod perm].
    rewrite (pph_bit _ _ (perm r I) I) by (apply perm_bit; exact Hn). ring.
Qed.

(** *** what the code computes from the index lists *)
Definition tgt (s : string) (gs : list gate) : list nat := map gtarget (filter (fun g => glabel g =? s) gs).
Lemma tgt_in s gs t : In t (tgt s gs) <-> exists g, In g gs /\ glabel g = s /\ gtarget g = t.
Proof.
  unfold tgt. rewrite in_map_iff. split.
  - intros (g & E & H). apply filter_In in H. destruct H as [H1 H2]. apply String.eqb_eq in H2. eauto.
  - intros (g & H1 & H2 & H3). exists g. split; [exact H3|]. apply filter_In. split; [exact H1|]. apply String.eqb_eq, H2.
Qed.
Lemma flip_all_app I a b : flip_all I (a ++ b) = flip_all (flip_all I a) b.
Proof. unfold flip_all. apply fold_left_app. Qed.
Lemma flip_all_flip I t l : flip_all (flip I t) l = flip (flip_all I l) t.
Proof. revert I; induction l as [|x l IH]; intros I; [reflexivity|]. cbn. rewrite flip_comm. apply IH. Qed.
Lemma flip_all_perm l l' I : Permutation l l' -> flip_all I l = flip_all I l'.
Proof. intros H; revert I; induction H; intros I; cbn; [reflexivity|apply IHPermutation|rewrite flip_comm; reflexivity|rewrite IHPermutation1; apply IHPermutation2]. Qed.
Lemma flip_all_bit I l k : ~ In k l -> bit (flip_all I l) k = bit I k.
Proof.
  revert I; induction l as [|x l IH]; intros I H; [reflexivity|]. cbn. fold (flip_all (flip I x) l). rewrite IH by (intros HH; apply H; right; exact HH).
  rewrite bit_flip. destruct (Nat.eqb_spec k x); [subst; exfalso; apply H; left; reflexivity|reflexivity].
Qed.
Lemma flip_all_lt n I l : (forall t, In t l -> t < n) -> I < 2 ^ n -> flip_all I l < 2 ^ n.
Proof. revert I; induction l as [|x l IH]; intros I H HI; [exact HI|]. cbn. apply IH; [intros; apply H; right; assumption|]. apply flip_lt; [apply H; left; reflexivity|exact HI]. Qed.
Lemma perm_flip gs I : Forall pauli_gate gs -> perm gs I = flip_all I (tgt "X" gs ++ tgt "Y" gs).
Proof.
  induction 1 as [|g r Hg HF IH]; [reflexivity|]. cbn [perm]. rewrite IH. unfold pidx, tgt. cbn [filter].
  destruct (pauli_label_cases _ (proj1 Hg)) as [E|[E|E]]; rewrite E; cbn [String.eqb Ascii.eqb Bool.eqb orb map].
  - rewrite <- flip_all_flip. reflexivity.
  - rewrite <- flip_all_flip. change (flip_all (flip I (gtarget g)) (map gtarget (filter (fun g => glabel g =? "X") r) ++ map gtarget (filter (fun g => glabel g =? "Y") r)) = flip_all I (map gtarget (filter (fun g => glabel g =? "X") r) ++ gtarget g :: map gtarget (filter (fun g => glabel g =? "Y") r))).
    rewrite (flip_all_perm (map gtarget (filter (fun g => glabel g =? "X") r) ++ gtarget g :: map gtarget (filter (fun g => glabel g =? "Y") r)) (gtarget g :: map gtarget (filter (fun g => glabel g =? "X") r) ++ map gtarget (filter (fun g => glabel g =? "Y") r))) by (apply Permutation_sym, Permutation_middle).
    reflexivity.
  - reflexivity.
Qed.
Definition ysg (b : bool) : C := (Ci * RtoC (sgn b))%C.
Lemma y_loop I ys : NoDup ys -> forall K val, (forall y, In y ys -> bit K y = bit I y) ->
  fold_left (fun s y => let '(K, val) := s in (flip K y, (val * (Ci * RtoC (sgn (bit K y))))%C)) ys (K, val) =
  (flip_all K ys, (val * Cprod (fun y => ysg (bit I y)) ys)%C).
Proof.
  induction 1 as [|y ys Hn HN IH]; intros K val H; cbn [fold_left Cprod].
  - f_equal. ring.
  - rewrite IH.
    + rewrite (H y (or_introl eq_refl)). unfold ysg at 2. f_equal. ring.
    + intros y' Hy'. rewrite bit_flip. destruct (Nat.eqb_spec y' y); [subst; contradiction|]. apply H; right; exact Hy'.
Qed.
Lemma z_loop I zs K : (forall z, In z zs -> bit K z = bit I z) -> forall val,
  fold_left (fun val z => (val * RtoC (sgn (bit K z)))%C) zs val = (val * Cprod (fun z => RtoC (sgn (bit I z))) zs)%C.
Proof.
  induction zs as [|z zs IH]; intros H val; cbn [fold_left Cprod]; [ring|]. rewrite IH by (intros; apply H; right; assumption).
  rewrite (H z (or_introl eq_refl)). ring.
Qed.
Lemma Cprod_map {A B} (f : B -> C) (g : A -> B) l : Cprod f (map g l) = Cprod (fun x => f (g x)) l.
Proof. induction l; cbn; congruence. Qed.
Fixpoint Cpow_neg (k : nat) : C := match k with O => C1 | S k => (- Cpow_neg k)%C end.
Lemma code_phase gs I : Forall pauli_gate gs ->
  (Cprod (fun y => ysg (bit I y)) (tgt "Y" gs) * Cprod (fun z => RtoC (sgn (bit I z))) (tgt "Z" gs))%C = (Cpow_neg (length (tgt "Y" gs)) * phs gs I)%C.
Proof.
  induction 1 as [|g r Hg HF IH]; [unfold tgt, phs; cbn; ring|]. unfold phs in *. cbn [Cprod]. unfold tgt in *. cbn [filter].
  destruct (pauli_label_cases _ (proj1 Hg)) as [E|[E|E]]; rewrite E; cbn [String.eqb Ascii.eqb Bool.eqb map Cprod length Cpow_neg]; unfold pph at 1; cbn [String.eqb Ascii.eqb Bool.eqb].
  - rewrite IH. ring.
  - transitivity (ysg (bit I (gtarget g)) * (Cprod (fun y => ysg (bit I y)) (map gtarget (filter (fun g0 => glabel g0 =? "Y") r)) * Cprod (fun z => RtoC (sgn (bit I z))) (map gtarget (filter (fun g0 => glabel g0 =? "Z") r))))%C; [ring|].
    rewrite IH. unfold ysg, sgn. destruct (bit I (gtarget g)); apply C_ext; cbn; ring.
  - transitivity (RtoC (sgn (bit I (gtarget g))) * (Cprod (fun y => ysg (bit I y)) (map gtarget (filter (fun g0 => glabel g0 =? "Y") r)) * Cprod (fun z => RtoC (sgn (bit I z))) (map gtarget (filter (fun g0 => glabel g0 =? "Z") r))))%C; [ring|].
    rewrite IH. unfold sgn. destruct (bit I (gtarget g)); apply C_ext; cbn; ring.
Qed.
Lemma tgt_disj s s' gs t : NoDup (map gtarget gs) -> s <> s' -> In t (tgt s gs) -> In t (tgt s' gs) -> False.
Proof.
  intros HN Hs H1 H2. apply tgt_in in H1, H2. destruct H1 as (g & A1 & A2 & A3), H2 as (h & B1 & B2 & B3).
  assert (g = h). { clear - HN A1 B1 A3 B3. subst t. induction gs as [|x r IH]; [destruct A1|]. cbn in HN. inversion HN; subst. destruct A1 as [<-|A1], B1 as [<-|B1]; auto.
    - exfalso; apply H1. rewrite <- B3. apply in_map, B1.
    - exfalso; apply H1. rewrite B3. apply in_map, A1. }
  congruence.
Qed.
Lemma tgt_nodup s gs : NoDup (map gtarget gs) -> NoDup (tgt s gs).
Proof.
  unfold tgt. induction gs as [|g r IH]; cbn; intros H; [constructor|]. inversion H; subst. destruct (_ =? _); cbn; [|auto]. constructor; [|auto].
  intros HH. apply H2. apply in_map_iff in HH. destruct HH as (h & E & Hh). apply filter_In in Hh. rewrite <- E. apply in_map, Hh.
Qed.
Lemma permuted_idx gs I : Forall pauli_gate gs -> NoDup (map gtarget gs) ->
  get_pauli_permuted_idx I (tgt "X" gs) (tgt "Y" gs) (tgt "Z" gs) = (perm gs I, (Cpow_neg (length (tgt "Y" gs)) * phs gs I)%C).
Proof.
  intros HP HN. unfold get_pauli_permuted_idx. rewrite (y_loop I).
  - rewrite (z_loop I).
    + rewrite (perm_flip gs I HP), flip_all_app. f_equal. rewrite <- code_phase by exact HP. ring.
    + intros z Hz. rewrite !flip_all_bit; [reflexivity| |]; intros HH; eapply (tgt_disj _ _ gs z HN); [|exact HH|exact Hz| |exact HH|exact Hz]; discriminate.
  - apply tgt_nodup, HN.
  - intros y Hy. apply flip_all_bit. intros HH. eapply (tgt_disj _ _ gs y HN); [|exact HH|exact Hy]. discriminate.
Qed.

(** *** blocks *)
Lemma bit_block_hi n m k t : k < 2 ^ m -> m <= t -> bit (n * 2 ^ m + k) t = bit n (t - m).
Proof.
  intros Hk Ht. unfold bit. replace t with (t - m + m) at 1 by lia. rewrite <- Nat.div_pow2_bits. f_equal.
  rewrite Nat.div_add_l by (apply Nat.pow_nonzero; lia). rewrite Nat.div_small by exact Hk. lia.
Qed.
Lemma bit_block_lo n m k t : t < m -> bit (n * 2 ^ m + k) t = bit k t.
Proof.
  intros Ht. unfold bit. rewrite <- (Nat.mod_pow2_bits_low (n * 2 ^ m + k) m t Ht), <- (Nat.mod_pow2_bits_low k m t Ht). f_equal.
  rewrite Nat.add_comm, Nat.mod_add by (apply Nat.pow_nonzero; lia). reflexivity.
Qed.
Lemma flip_block n m k t : k < 2 ^ m -> m <= t -> flip (n * 2 ^ m + k) t = flip n (t - m) * 2 ^ m + k.
Proof.
  intros Hk Ht. apply bits_ext. intros j. rewrite bit_flip. destruct (Nat.lt_ge_cases j m).
  - rewrite !bit_block_lo by assumption. destruct (Nat.eqb_spec j t); [lia|reflexivity].
  - rewrite !bit_block_hi by assumption. rewrite bit_flip. destruct (Nat.eqb_spec j t), (Nat.eqb_spec (j - m) (t - m)); try lia; reflexivity.
Qed.
Lemma flip_all_block m k l : k < 2 ^ m -> (forall t, In t l -> m <= t) -> forall n, flip_all (n * 2 ^ m + k) l = flip_all (n * 2 ^ m) l + k.
Proof.
  intros Hk. induction l as [|t l IH]; intros H n; [reflexivity|]. cbn. fold (flip_all (flip (n * 2 ^ m + k) t) l). fold (flip_all (flip (n * 2 ^ m) t) l).
  rewrite flip_block by (try exact Hk; apply H; left; reflexivity). rewrite IH by (intros; apply H; right; assumption).
  assert (E : flip (n * 2 ^ m) t = flip n (t - m) * 2 ^ m). { pose proof (flip_block n m 0 t (pow2_pos m) (H t (or_introl eq_refl))) as E. rewrite !Nat.add_0_r in E. exact E. }
  rewrite E. reflexivity.
Qed.
Lemma phs_block gs m n k : (forall g, In g gs -> m <= gtarget g) -> k < 2 ^ m -> phs gs (n * 2 ^ m + k) = phs gs (n * 2 ^ m).
Proof.
  intros H Hk. unfold phs. apply Cprod_ext. intros g Hg. apply pph_bit. rewrite bit_block_hi by (try exact Hk; apply H, Hg).
  pose proof (bit_block_hi n m 0 (gtarget g) (pow2_pos m) (H g Hg)) as E. rewrite Nat.add_0_r in E. symmetry; exact E.
Qed.
Lemma Csum_blocks (F : nat -> C) b s : Csum (fun n => Csum (fun k => F (n * s + k)) (seq 0 s)) (seq 0 b) = Csum F (seq 0 (b * s)).
Proof.
  induction b as [|b IH]; [reflexivity|]. rewrite seq_S, Csum_app, IH. cbn [Nat.add]. rewrite Csum_cons, Csum_nil, Cadd_0_r.
  replace (S b * s) with (b * s + s) by lia. rewrite seq_app, Csum_app. f_equal. cbn [Nat.add].
  assert (HG : forall a s, Csum F (seq a s) = Csum (fun k => F (a + k)) (seq 0 s)).
  { clear. intros a s. revert a. induction s as [|s IHs]; intros a; [reflexivity|]. rewrite !seq_S, !Csum_app, IHs. cbn [Nat.add]. rewrite !Csum_cons, !Csum_nil. reflexivity. }
  symmetry. apply HG.
Qed.
Lemma foreach_sum {A} (body : A -> res C) (f : A -> C) l : (forall x, In x l -> body x = Ok (f x)) -> forall acc,
  foreach l (fun x acc => do y <- body x; Ok (acc + y)%C) acc = Ok (acc + Csum f l)%C.
Proof.
  induction l as [|x l IH]; intros H acc; cbn [foreach]; [rewrite Csum_nil, Cadd_0_r; reflexivity|].
  rewrite (H x (or_introl eq_refl)). cbn [bind]. rewrite IH by (intros; apply H; right; assumption). rewrite Csum_cons. f_equal; ring.
Qed.
Lemma bind_bind {A B D} (a : res A) (f : A -> res B) (g : B -> res D) : bind (bind a f) g = bind a (fun x => bind (f x) g).
Proof. destruct a; reflexivity. Qed.
Lemma block_inner_ok v I1 len J : I1 + len <= length v -> J + len <= length v ->
  block_inner v I1 len J = Ok (Csum (fun k => (Cconj (nth (I1 + k) v C0) * nth (J + k) v C0)%C) (seq 0 len)).
Proof.
  intros H1 H2. unfold block_inner. rewrite (foreach_ext _ _ (fun k acc => do y <- Ok (Cconj (nth (I1 + k) v C0) * nth (J + k) v C0)%C; Ok (acc + y)%C)).
  - rewrite (foreach_sum (fun k => Ok (Cconj (nth (I1 + k) v C0) * nth (J + k) v C0)%C) (fun k => (Cconj (nth (I1 + k) v C0) * nth (J + k) v C0)%C)) by reflexivity. rewrite Cadd_0_l. reflexivity.
  - intros k s Hk. apply in_seq in Hk. rewrite (vget_ok v (I1 + k) C0), (vget_ok v (J + k) C0) by lia. reflexivity.
Qed.

(** the classification loop *)
Lemma classify gs : Forall pauli_gate gs -> forall mn xs ys zs, exists mn',
  foreach gs (fun g s =>
       let '(mn, xs, ys, zs) := s in
       let t := gtarget g in
       let mn := if (t <? mn)%nat then t else mn in
       if glabel g =? "Z" then Ok (mn, xs, ys, (zs ++ [t])%list)
       else if glabel g =? "X" then Ok (mn, (xs ++ [t])%list, ys, zs)
       else if glabel g =? "Y" then Ok (mn, xs, (ys ++ [t])%list, zs)
       else Throw RuntimeErr) (mn, xs, ys, zs) = Ok (mn', (xs ++ tgt "X" gs)%list, (ys ++ tgt "Y" gs)%list, (zs ++ tgt "Z" gs)%list) /\
  mn' <= mn /\ (forall g, In g gs -> mn' <= gtarget g).
Proof.
  induction 1 as [|g r Hg HF IH]; intros mn xs ys zs; cbn [foreach].
  - exists mn. unfold tgt; cbn. rewrite !app_nil_r. split; [reflexivity|]. split; [lia|intros g []].
  - set (mn1 := if (gtarget g <? mn)%nat then gtarget g else mn).
    assert (HM : mn1 <= mn /\ mn1 <= gtarget g) by (unfold mn1; destruct (Nat.ltb_spec (gtarget g) mn); lia).
    unfold tgt. cbn [filter]. destruct (pauli_label_cases _ (proj1 Hg)) as [E|[E|E]]; rewrite E; cbn [String.eqb Ascii.eqb Bool.eqb bind map].
    + destruct (IH mn1 (xs ++ [gtarget g])%list ys zs) as (mn' & E' & H1 & H2). exists mn'. split; [|split; [lia|intros h [<-|Hh]; [lia|auto]]].
      etransitivity; [exact E'|]. rewrite <- app_assoc. reflexivity.
    + destruct (IH mn1 xs (ys ++ [gtarget g])%list zs) as (mn' & E' & H1 & H2). exists mn'. split; [|split; [lia|intros h [<-|Hh]; [lia|auto]]].
      etransitivity; [exact E'|]. rewrite <- app_assoc. reflexivity.
    + destruct (IH mn1 xs ys (zs ++ [gtarget g])%list) as (mn' & E' & H1 & H2). exists mn'. split; [|split; [lia|intros h [<-|Hh]; [lia|auto]]].
      etransitivity; [exact E'|]. rewrite <- app_assoc. reflexivity.
Qed.
Lemma concat_sum (f : nat -> C) ll : Csum (fun l => Csum f l) ll = Csum f (concat ll).
Proof. induction ll as [|l ll IH]; [reflexivity|]. rewrite Csum_cons, IH. cbn [concat]. rewrite Csum_app. reflexivity. Qed.
Theorem pauli_exp_val sched q gs : legal_schedule sched -> wf_computer q -> Forall pauli_gate gs -> NoDup (map gtarget gs) ->
  Forall (fun g => gtarget g < nqubit q) gs -> 1 <= nqubit q ->
  direct_pauli_circ_exp_val sched q gs =
    Ok (Cpow_neg (length (tgt "Y" gs)) * inner (nqubit q) (amp (coeff q)) (circ_act gs (amp (coeff q))))%C.
Proof.
  intros HS HQ HP HN HR H1. unfold direct_pauli_circ_exp_val. destruct (Nat.eqb_spec (nqubit q) 0); [lia|].
  destruct (classify gs HP (nqubit q - 1) [] [] []) as (mn & E & M1 & M2). cbv zeta in E |- *. rewrite E. cbn [bind app]. clear E.
  set (n0 := nqubit q) in *. set (b := 2 ^ mn) in *.
  assert (Hb : b <> 0) by (apply Nat.pow_nonzero; lia).
  assert (HB : nbasis q = 2 ^ (n0 - mn) * b). { unfold nbasis, b. fold n0. rewrite <- Nat.pow_add_r. f_equal; lia. }
  rewrite HB, Nat.div_mul by exact Hb. set (nb := 2 ^ (n0 - mn)) in *.
  assert (HL : length (coeff q) = nb * b). { rewrite <- HB. apply HQ. }
  assert (HMB : forall m, m < nb -> m * b + b <= nb * b). { intros m Hm. replace (m * b + b) with (S m * b) by (cbn; lia). apply Nat.mul_le_mono_r. lia. }
  set (F := fun I => (Cconj (amp (coeff q) I) * circ_act gs (amp (coeff q)) I)%C).
  set (s := Cpow_neg (length (tgt "Y" gs))).
  assert (HT : forall t, In t (tgt "X" gs ++ tgt "Y" gs)%list -> exists g, In g gs /\ gtarget g = t).
  { intros t Ht. apply in_app_or in Ht. destruct Ht as [Ht|Ht]; apply tgt_in in Ht; destruct Ht as (g & ? & _ & ?); eauto. }
  assert (HIn : forall m, m < nb -> (let '(J, val) := get_pauli_permuted_idx (m * b) (tgt "X" gs) (tgt "Y" gs) (tgt "Z" gs) in
       do x <- block_inner (coeff q) (m * b) b J; Ok (val * x)%C) = Ok (s * Csum (fun k => F (m * b + k)%nat) (seq 0 b))%C).
  { intros m Hm. rewrite (permuted_idx gs _ HP HN). fold s. rewrite (perm_flip gs _ HP).
    assert (HJ : forall k, k < b -> flip_all (m * b) (tgt "X" gs ++ tgt "Y" gs) + k = perm gs (m * b + k)).
    { intros k Hk. rewrite (perm_flip gs _ HP). symmetry. apply flip_all_block; [exact Hk|]. intros t Ht. destruct (HT t Ht) as (g & Hg & <-). apply M2, Hg. }
    assert (HJL : forall k, k < b -> perm gs (m * b + k) < nb * b).
    { intros k Hk. rewrite <- HB. unfold nbasis. rewrite (perm_flip gs _ HP). apply flip_all_lt.
      - intros t Ht. destruct (HT t Ht) as (g & Hg & <-). rewrite Forall_forall in HR. apply HR, Hg.
      - unfold nbasis in HB. rewrite HB. specialize (HMB m Hm). lia. }
    rewrite block_inner_ok.
    - cbn [bind]. f_equal. match goal with |- (_ * _ * ?c)%C = _ => transitivity (s * (phs gs (m * b) * c))%C; [ring|] end. f_equal. rewrite <- Csum_mul_l. apply Csum_ext. intros k Hk. apply in_seq in Hk. unfold F.
      rewrite (string_idx gs HP HN), <- HJ by lia. unfold b. rewrite phs_block; [|exact M2|unfold b in *; lia]. unfold amp. ring.
    - rewrite HL. apply HMB, Hm.
    - rewrite HL. pose proof (HJL (b - 1) ltac:(lia)). rewrite <- HJ in H by lia. lia. }
  transitivity (foreach (sched nb) (fun iters acc => do y <- Ok (Csum (fun m => s * Csum (fun k => F (m * b + k)%nat) (seq 0 b)) iters)%C; Ok (acc + y)%C) C0).
  - apply foreach_ext. intros iters acc Hi.
    rewrite (foreach_ext _ _ (fun m acc => do y <- (let '(J, val) := get_pauli_permuted_idx (m * b) (tgt "X" gs) (tgt "Y" gs) (tgt "Z" gs) in
       do x <- block_inner (coeff q) (m * b) b J; Ok (val * x)%C); Ok (acc + y)%C)).
    + rewrite (foreach_sum _ (fun m => s * Csum (fun k => F (m * b + k)%nat) (seq 0 b))%C).
      * cbn [bind]. rewrite Cadd_0_l. reflexivity.
      * intros m Hm. apply HIn. pose proof (HS nb) as HPm. assert (Hc : In m (concat (sched nb))) by (apply in_concat; eauto).
        apply (Permutation_in _ HPm) in Hc. apply in_seq in Hc. lia.
    + intros m acc' _. destruct (get_pauli_permuted_idx _ _ _ _) as [J val]. rewrite bind_bind. reflexivity.
  - rewrite (foreach_sum _ (fun iters => Csum (fun m => s * Csum (fun k => F (m * b + k)%nat) (seq 0 b)) iters)%C) by reflexivity. f_equal. rewrite Cadd_0_l.
    rewrite concat_sum, (Csum_perm _ _ _ (HS nb)), Csum_mul_l. f_equal. rewrite (Csum_blocks F nb b). rewrite <- HB. reflexivity.
Qed.
