(** Quantum numbers of the terms of the molecular Hamiltonian. *)
From Coq Require Import Reals String List Arith ZArith NArith Bool Lia Lra Sorted Permutation.
From Verif Require Import CBase Result Bits Spec OpSpec SQSpec SQModel ExpSpec AnsatzSpec SQPoolSpec SpinSpec MolSpec MolModel MolProofs SectorProofs.
From Verif Require SectorPools.
Import ListNotations.
Local Open Scope nat_scope.

(** orbitals of different irreps are not coupled *)
Definition SymmetricIntegrals (irreps : list N) (h : nat -> nat -> R) (g : nat -> nat -> nat -> nat -> R) : Prop :=
  let irr p := nth p irreps 0%N in
  (forall p q, irr p <> irr q -> h p q = 0%R) /\
  (forall p q r s, N.lxor (N.lxor (irr p) (irr q)) (N.lxor (irr r) (irr s)) <> 0%N -> g p q r s = 0%R).
Definition ZeroOr m irr (t : fterm) : Prop := fcoef t = C0 \/ SectorPools.Symmetric m irr (fcre t) (fann t).
Lemma zero_terms qe o psi I : act qe (filter (fun t => if Ceq_dec (fcoef t) C0 then false else true) o) psi I = act qe o psi I.
Proof.
  unfold act. destruct qe; [unfold qexc_act|unfold fermi_act]; (induction o as [|t o IH]; [reflexivity|]); cbn [filter]; rewrite (Csum_cons _ t o); (destruct (Ceq_dec (fcoef t) C0) as [E|E]; [rewrite IH, E; ring|rewrite Csum_cons; now rewrite IH]).
Qed.
Lemma zero_or_keeps m irr qe o I0 : Forall (ZeroOr m irr) o -> forall psi, Within (SectorPools.SameSymmetry m irr I0) psi -> Within (SectorPools.SameSymmetry m irr I0) (act qe o psi).
Proof.
  intros F psi W I HI. rewrite <- zero_terms in HI. revert I HI. refine (SectorPools.symmetric_keeps m irr qe _ I0 _ psi W). apply Forall_forall. intros t It. apply filter_In in It. destruct It as (It & Hn). rewrite Forall_forall in F. destruct (F t It) as [E|S]; [|exact S]. destruct (Ceq_dec (fcoef t) C0); [discriminate|contradiction].
Qed.
Lemma dressed_symmetric irreps h g c lo hi : SymmetricIntegrals irreps h g -> forall p q, nth p irreps 0%N <> nth q irreps 0%N -> dressed c lo hi h g p q = 0%R.
Proof.
  intros (Hh & Hg) p q N. unfold dressed. rewrite (Hh p q N). destruct (_ && _); [|reflexivity]. assert (Nx : N.lxor (nth p irreps 0%N) (nth q irreps 0%N) <> 0%N) by (intros K; apply N.lxor_eq in K; contradiction).
  induction (seq 0 c) as [|i l IH]; [reflexivity|]. cbn [fold_left]. rewrite (Hg p q i i) by (rewrite N.lxor_nilpotent, N.lxor_0_r; exact Nx). rewrite (Hg p i i q). 2: { rewrite N.lxor_assoc, <- (N.lxor_assoc (nth i irreps 0%N)), N.lxor_nilpotent, N.lxor_0_l. exact Nx. }
  replace (0 + (2 * 0 - 0))%R with 0%R by ring. exact IH.
Qed.
Lemma nth_skip {A} (l : list A) d c i : nth i (skipn c l) d = nth (c + i) l d.
Proof. revert l. induction c as [|c IH]; intros l; [reflexivity|]. destruct l as [|x l]; [destruct i; reflexivity|]. cbn [skipn Nat.add nth]. apply IH. Qed.
Lemma mol_symmetric irreps e nmo c v h g : SymmetricIntegrals irreps h g -> Forall (ZeroOr (nmo - v - c) (skipn c irreps)) (mol_sq e nmo c v h g).
Proof.
  intros HS. rewrite mol_sq_eq. set (m := nmo - v - c). set (irr := skipn c irreps).
  assert (FM : forall (A : Type) (F : A -> list fterm) l (Q : fterm -> Prop), (forall x, In x l -> Forall Q (F x)) -> Forall Q (flat_map F l)). { intros A F l Q H. apply Forall_forall. intros t Ht. apply in_flat_map in Ht. destruct Ht as (x & Hx & Ht). specialize (H x Hx). rewrite Forall_forall in H. now apply H. }
  assert (NI : forall i, c <= i -> nth (i - c) irr 0%N = nth i irreps 0%N) by (intros i L; unfold irr; rewrite nth_skip; f_equal; lia).
  assert (P : forall i j k l (u w : bool), In i (seq c m) -> In j (seq c m) -> In k (seq c m) -> In l (seq c m) -> Forall (ZeroOr m irr) (pair_terms (g i l k j / 2) (SectorPools.sp u (i - c)) (SectorPools.sp w (j - c)) (SectorPools.sp w (k - c)) (SectorPools.sp u (l - c)))).
  { intros i j k l u w Hi Hj Hk Hl. apply in_seq in Hi, Hj, Hk, Hl. unfold pair_terms, add_pair, sq_add_term. destruct (_ && _); cbn [app]; [|constructor]. constructor; [|constructor]. unfold ZeroOr. unfold fcoef, fcre, fann. cbn [fst snd].
    destruct (N.eq_dec (N.lxor (N.lxor (nth i irreps 0%N) (nth l irreps 0%N)) (N.lxor (nth k irreps 0%N) (nth j irreps 0%N))) 0) as [Z|Z]; [|left; rewrite (proj2 HS _ _ _ _ Z); apply C_ext; cbn; lra].
    right. apply SectorPools.four_symmetric; try lia. rewrite !NI by lia. apply N.lxor_eq. refine (eq_trans _ Z). apply N.bits_inj. intros b. rewrite !N.lxor_spec. clear. destruct (N.testbit (nth i irreps 0%N) b), (N.testbit (nth j irreps 0%N) b), (N.testbit (nth k irreps 0%N) b), (N.testbit (nth l irreps 0%N) b); reflexivity. }
  assert (O : forall i j (u : bool), In i (seq c m) -> In j (seq c m) -> ZeroOr m irr ((RtoC (dressed c c (nmo - v) h g i j), [SectorPools.sp u (i - c)]), [SectorPools.sp u (j - c)])).
  { intros i j u Hi Hj. apply in_seq in Hi, Hj. unfold ZeroOr, fcoef, fcre, fann. cbn [fst snd]. destruct (N.eq_dec (nth i irreps 0%N) (nth j irreps 0%N)) as [Z|Z]; [|left; now rewrite (dressed_symmetric irreps)].
    right. split; [repeat constructor; apply SectorPools.sp_lt; lia|]. split; [repeat constructor; apply SectorPools.sp_lt; lia|]. split; [reflexivity|]. split; [unfold wlist; cbn [map fold_right]; now rewrite !SectorPools.sp_sz|]. unfold total_irrep. cbn [map fold_right]. rewrite !SectorPools.sp_half, !NI by lia. now rewrite Z. }
  assert (EU : forall k, k * 2 = SectorPools.sp true k) by (intros k; cbn; lia). assert (ED : forall k, k * 2 + 1 = SectorPools.sp false k) by (intros k; cbn; lia).
  constructor; [right; repeat split; constructor|]. apply FM. intros i Hi. apply FM. intros j Hj. apply Forall_app. split.
  - rewrite !ED, !EU. constructor; [now apply O|]. constructor; [now apply O|constructor].
  - apply FM. intros k Hk. apply FM. intros l Hl. unfold four. rewrite !ED, !EU. repeat (apply Forall_app; split); now apply P.
Qed.
