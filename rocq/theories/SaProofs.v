(** The sa_SD pool: simplification and meaning of its operators. *)
From Coq Require Import Reals String List Arith NArith ZArith Bool Lia Lra Permutation Sorted.
From Verif Require Import CBase Result Bits Spec SQSpec OperatorModel SQModel SQPhase SQProofs SQPoolSpec SQPoolModel SQPoolProofs SQPoolOps FermiProofs GsdModel GsdProofs SaModel SaSpec SaFermi.
Import ListNotations.
Local Open Scope nat_scope.

(** ---- canonical order of one- and two-body terms ---- *)
Definition canon2 (t : fterm) : fterm :=
  match fcre t, fann t with
  | [x; y], [z; w] => (((fcoef t * sgn (Nat.ltb x y) * sgn (Nat.ltb z w))%C, two x y), two z w)
  | _, _ => t
  end.
Definition short (t : fterm) : Prop :=
  (exists x z, fcre t = [x] /\ fann t = [z]) \/ (exists x y z w, fcre t = [x; y] /\ fann t = [z; w] /\ x <> y /\ z <> w).
Lemma canon_short srt t : legal_sort srt -> short t -> canonical_order_single_term srt t = Ok (canon2 t).
Proof.
  intros HS [(x & z & E1 & E2)|(x & y & z & w & E1 & E2 & N1 & N2)]; destruct t as [[c cre] ann]; unfold fcre, fann, fcoef in *; cbn [fst snd] in *; subst.
  - rewrite (canon_single srt c [x] [z] [x] [z]) by (assumption || reflexivity || (constructor; constructor)). unfold canon2, fcre, fann, fcoef. cbn [fst snd inversions filter length Nat.add]. change (Nat.odd 0) with false. change (sgn false) with C1.
    do 3 f_equal. ring.
  - rewrite (canon_single srt c [x; y] [z; w] (two x y) (two z w)) by (assumption || apply two_perm || (apply two_sorted; assumption)). unfold canon2, fcre, fann, fcoef. cbn [fst snd]. rewrite !two_inv by assumption.
    do 3 f_equal. destruct (Nat.ltb x y), (Nat.ltb z w); reflexivity.
Qed.
Lemma canon_shorts srt o : legal_sort srt -> Forall short o -> sq_canonical_order srt o = Ok (map canon2 o).
Proof.
  intros HS. unfold sq_canonical_order. induction 1 as [|t o St _ IH]; [reflexivity|]. cbn [mapM map]. rewrite canon_short by assumption. cbn [bind]. rewrite IH. reflexivity.
Qed.
(** coefficient of a key *)
Definition keq (a b : list nat * list nat) : bool := if list_eq_dec Nat.eq_dec (fst a) (fst b) then if list_eq_dec Nat.eq_dec (snd a) (snd b) then true else false else false.
Lemma keq_spec a b : reflect (a = b) (keq a b).
Proof.
  unfold keq. destruct a as [a1 a2], b as [b1 b2]; cbn [fst snd]. destruct (list_eq_dec Nat.eq_dec a1 b1) as [->|N]; [destruct (list_eq_dec Nat.eq_dec a2 b2) as [->|N]|]; constructor; congruence.
Qed.
Definition sumk (k : list nat * list nat) (o : list fterm) : C := Csum (fun t => if keq (fkey t) k then fcoef t else C0) o.
Definition msum (k : list nat * list nat) (m : list ((list nat * list nat) * C)) : C := Csum (fun kv => if keq (fst kv) k then snd kv else C0) m.
Lemma msum_acc k k' v m : msum k (sq_accumulate k' v m) = ((if keq k' k then v else C0) + msum k m)%C.
Proof.
  unfold msum. induction m as [|[k0 v0] r IH]; cbn [sq_accumulate].
  - rewrite Csum_cons, !Csum_nil. cbn [fst snd]. reflexivity.
  - destruct (pair_ltb k' k0) eqn:E1; [rewrite !Csum_cons; reflexivity|]. destruct (pair_ltb k0 k') eqn:E2.
    + rewrite !Csum_cons, IH. cbn [fst snd]. ring.
    + pose proof (pair_ltb_total _ _ E1 E2). subst k0. rewrite !Csum_cons. cbn [fst snd]. destruct (keq k' k); ring.
Qed.
Lemma msum_map k o : forall m, msum k (sq_map o m) = (sumk k o + msum k m)%C.
Proof.
  induction o as [|t o IH]; intros m; [unfold sumk; rewrite Csum_nil; cbn [sq_map fold_left]; ring|].
  change (sq_map (t :: o) m) with (sq_map o (sq_accumulate (fcre t, fann t) (fcoef t) m)). rewrite IH, msum_acc. unfold sumk. rewrite Csum_cons. unfold fkey at 2. ring.
Qed.
Lemma msum_in m : NoDup (map fst m) -> forall kv, In kv m -> msum (fst kv) m = snd kv.
Proof.
  unfold msum. induction m as [|kv0 r IH]; intros Nd kv I; [destruct I|]. inversion Nd as [|? ? Ni Nr]; subst. rewrite Csum_cons. destruct I as [<-|I].
  - destruct (keq_spec (fst kv0) (fst kv0)); [|contradiction]. rewrite Csum_zero; [ring|]. intros x Ix. destruct (keq_spec (fst x) (fst kv0)) as [E|]; [|reflexivity].
    exfalso. apply Ni. rewrite <- E. apply in_map. exact Ix.
  - rewrite IH by assumption. destruct (keq_spec (fst kv0) (fst kv)) as [E|]; [|ring]. exfalso. apply Ni. rewrite E. apply in_map. exact I.
Qed.
Lemma msum_out m k : ~ In k (map fst m) -> msum k m = C0.
Proof. intros N. apply Csum_zero. intros kv I. destruct (keq_spec (fst kv) k) as [E|]; [|reflexivity]. exfalso. apply N. rewrite <- E. now apply in_map. Qed.

(** all coefficients are integer multiples of u *)
Definition Quantum (u : R) (c : C) : Prop := exists n : Z, c = RtoC (IZR n * u).
Lemma quantum_add u a b : Quantum u a -> Quantum u b -> Quantum u (a + b)%C.
Proof. intros (n & ->) (k & ->). exists (n + k)%Z. rewrite plus_IZR. apply C_ext; cbn; ring. Qed.
Lemma quantum_sgn u a b : Quantum u a -> Quantum u (a * sgn b)%C.
Proof. intros (n & ->). destruct b; [exists (- n)%Z; rewrite opp_IZR|exists n]; apply C_ext; cbn; ring. Qed.
Lemma quantum_zero u : Quantum u C0.
Proof. exists 0%Z. apply C_ext; cbn; ring. Qed.
Lemma quantum_sum {A} u (f : A -> C) l : (forall x, In x l -> Quantum u (f x)) -> Quantum u (Csum f l).
Proof.
  induction l as [|x r IH]; intros H; [rewrite Csum_nil; apply quantum_zero|]. rewrite Csum_cons. apply quantum_add; [apply H; now left | apply IH; intros; apply H; now right].
Qed.
Lemma quantum_small u c : (1e-12 < u)%R -> Quantum u c -> (Cabs c <= 1e-12)%R -> c = C0.
Proof.
  intros Hu (n & ->) H. destruct (Z.eq_dec n 0) as [->|N]; [apply C_ext; cbn; ring|]. exfalso.
  rewrite Cabs_RtoC in H. rewrite Rabs_mult, (Rabs_right u) in H by lra. rewrite <- abs_IZR in H.
  assert (1 <= IZR (Z.abs n))%R by (apply IZR_le; lia). assert (u <= IZR (Z.abs n) * u)%R by nra. lra.
Qed.
Lemma canon_quantum u t : Quantum u (fcoef t) -> Quantum u (fcoef (canon2 t)).
Proof.
  intros Q. unfold canon2. destruct (fcre t) as [|x [|y [|]]]; auto. destruct (fann t) as [|z [|w [|]]]; auto. unfold fcoef at 1. cbn [fst]. apply quantum_sgn, quantum_sgn, Q.
Qed.
Lemma simplify_quantum srt u o : legal_sort srt -> Forall short o -> (1e-12 < u)%R -> Forall (fun t => Quantum u (fcoef t)) o ->
  exists kept, sq_simplify srt o = Ok kept /\ (forall psi, fermi_act kept psi = fermi_act o psi) /\
    (forall t, In t kept -> fcoef t <> C0 /\ sumk (fkey t) (map canon2 o) = fcoef t) /\ NoDup (map fkey kept) /\
    (forall k, sumk k (map canon2 o) <> C0 -> In k (map fkey kept)).
Proof.
  intros HS Sh Hu Q. destruct (sq_simplify_spec srt o HS) as (kept & dropped & E & _ & Nd & Big & Small & _ & Act).
  pose proof E as E0. unfold sq_simplify in E0. rewrite (canon_shorts srt o HS Sh) in E0. cbn [bind] in E0. cbv zeta in E0.
  change (fold_left (fun m t => sq_accumulate (fcre t, fann t) (fcoef t) m) (map canon2 o) []) with (sq_map (map canon2 o) []) in E0.
  set (mm := sq_map (map canon2 o) []) in *. destruct (sq_map_spec (map canon2 o) [] (SSorted_nil _)) as (Hs & HM & _). fold mm in Hs, HM. pose proof (smap_nodup _ Hs) as Nm.
  assert (Ms : forall k, msum k mm = sumk k (map canon2 o)) by (intros k; unfold mm; rewrite msum_map; unfold msum; rewrite Csum_nil; ring).
  assert (Qs : forall k, Quantum u (sumk k (map canon2 o))).
  { intros k. apply quantum_sum. intros t I. apply in_map_iff in I. destruct I as (t0 & <- & I). rewrite Forall_forall in Q. destruct (keq _ _); [apply canon_quantum, Q, I | apply quantum_zero]. }
  injection E0 as E0. change (map tof (filter (fun kv => Rltb 1e-12 (Cabs (snd kv))) mm) = kept) in E0.
  exists kept. split; [exact E|].
  assert (Hv : forall kv, In kv mm -> snd kv = sumk (fst kv) (map canon2 o)) by (intros kv I; rewrite <- Ms; symmetry; now apply msum_in).
  split; [|split; [|split]].
  - intros psi. apply eqs. intros I. transitivity (fermi_act (map tof mm) psi I).
    + rewrite <- E0. clear - Hv Qs Hu. unfold fermi_act. induction mm as [|kv r IH]; [reflexivity|]. cbn [filter map]. rewrite (Csum_cons _ (tof kv)).
      assert (IH' : Csum (fun t => fcoef t * ladder_act (fcre t) (fann t) psi I)%C (map tof (filter (fun kv => Rltb 1e-12 (Cabs (snd kv))) r)) = Csum (fun t => fcoef t * ladder_act (fcre t) (fann t) psi I)%C (map tof r)) by (apply IH; intros; apply Hv; now right).
      destruct (Rltb_spec 1e-12 (Cabs (snd kv))) as [B|B].
      * cbn [map]. rewrite Csum_cons. now rewrite IH'.
      * rewrite IH'. assert (Z : snd kv = C0) by (apply (quantum_small u); [exact Hu | rewrite Hv by (now left); apply Qs | apply Rnot_lt_le; exact B]). unfold tof at 2. unfold fcoef at 2. cbn [fst snd]. rewrite Z. ring.
    + rewrite HM. change (fermi_act (map tof []) psi I) with C0. destruct (sq_canonical_spec srt o HS) as (o' & E' & _ & _ & A). rewrite (canon_shorts srt o HS Sh) in E'. injection E' as <-. rewrite (A psi I). ring.
  - intros t I. rewrite <- E0 in I. apply in_map_iff in I. destruct I as (kv & <- & I). apply filter_In in I. destruct I as (I & B). split.
    + unfold tof, fcoef. cbn [fst snd]. intros Z. rewrite Z in B. destruct (Rltb_spec 1e-12 (Cabs C0)) as [B'|]; [|discriminate]. rewrite Cabs_C0 in B'. lra.
    + rewrite fkey_tof. rewrite <- (Hv kv I). reflexivity.
  - rewrite map_app in Nd. clear - Nd. induction (map fkey kept) as [|x r IH]; [constructor|]. cbn in Nd. inversion Nd; subst. constructor; [intros I; apply H1, in_app_iff; now left | now apply IH].
  - intros k Nz. rewrite <- Ms in Nz. destruct (in_dec (fun a b => reflect_dec _ _ (keq_spec a b)) k (map fst mm)) as [I|N]; [|rewrite msum_out in Nz by exact N; contradiction].
    apply in_map_iff in I. destruct I as (kv & <- & I). rewrite (msum_in mm Nm kv I) in Nz. rewrite <- E0, map_map. apply in_map_iff. exists kv. split; [apply fkey_tof|].
    apply filter_In. split; [exact I|]. destruct (Rltb_spec 1e-12 (Cabs (snd kv))) as [|B]; [reflexivity|]. exfalso. apply Nz. apply (quantum_small u); [exact Hu | rewrite (Hv kv I); apply Qs | apply Rnot_lt_le; exact B].
Qed.

(** ---- normalisation ---- *)
Definition weight (o : list fterm) : R := fold_right (fun t s => (Cabs (fcoef t) * Cabs (fcoef t) + s)%R) 0%R o.
Lemma norm_weight o : norm_of o = weight o.
Proof.
  unfold norm_of. assert (K : forall s, fold_left (fun s t => (s + Cabs (fcoef t) * Cabs (fcoef t))%R) o s = (s + weight o)%R); [|rewrite K; lra].
  induction o as [|t r IH]; intros s; cbn [fold_left weight fold_right]; [ring|]. rewrite IH. unfold weight. ring.
Qed.
Lemma weight_scale k o : weight (sq_mult_coeffs o (RtoC k)) = (k * k * weight o)%R.
Proof.
  assert (A : (Rabs k * Rabs k = k * k)%R) by (rewrite <- Rabs_mult; apply Rabs_right; nra).
  unfold sq_mult_coeffs. induction o as [|t r IH]; cbn [map weight fold_right]; [ring|]. unfold weight in IH. rewrite IH. change (fcoef (((fcoef t * RtoC k)%C, fcre t), fann t)) with (fcoef t * RtoC k)%C. rewrite Cabs_mul, Cabs_RtoC.
  fold (weight r). set (c := Cabs (fcoef t)). transitivity (c * c * (Rabs k * Rabs k) + k * k * weight r)%R; [ring|]. rewrite A. ring.
Qed.
Lemma weight_pos o : o <> [] -> (forall t, In t o -> fcoef t <> C0) -> (0 < weight o)%R.
Proof.
  intros Ne H. destruct o as [|t r]; [contradiction|]. cbn [weight fold_right].
  assert (P : (0 <= weight r)%R) by (clear; induction r as [|t r IH]; cbn; [lra|]; unfold weight in IH; nra).
  assert (T : (0 < Cabs (fcoef t))%R). { apply Cabs_pos, H. now left. }
  unfold weight in P. nra.
Qed.
Lemma normalized_spec o : o <> [] -> (forall t, In t o -> fcoef t <> C0) ->
  exists k, (0 < k)%R /\ normalized o = sq_mult_coeffs o (RtoC k) /\ weight (normalized o) = 2%R.
Proof.
  intros Ne H. pose proof (weight_pos o Ne H) as P. exists (sqrt (2 / norm_of o)). rewrite norm_weight.
  assert (Q : (0 < 2 / weight o)%R) by (apply Rdiv_lt_0_compat; lra). split; [now apply sqrt_lt_R0|]. split; [unfold normalized; now rewrite norm_weight|].
  unfold normalized. rewrite weight_scale, norm_weight, sqrt_sqrt by lra. field. lra.
Qed.
Lemma fermi_mult o k psi : fermi_act (sq_mult_coeffs o k) psi = sscale k (fermi_act o psi).
Proof.
  apply eqs. intros I. unfold fermi_act, sscale, sq_mult_coeffs. rewrite Csum_map, <- Csum_mul_l. apply Csum_ext. intros t _. unfold fcoef, fcre, fann. cbn [fst snd]. ring.
Qed.
