(** Property theorems C48: generalised eigenvalue problem (eigsolve.py).
    The contract of scipy.linalg.eig is [eig_contract] (EigProofs.v): it returns n eigenvalues
    and a matrix whose columns are eigenvectors. *)
From Coq Require Import Reals String List Arith Lia Bool Lra Permutation Sorted.
From Verif Require Import CBase Result Spec EigModel EigProofs.
Import ListNotations.
Local Open Scope C_scope.

(** entry i of the vector A v *)
Definition mv (n : nat) (A : mat) (v : nat -> C) (i : nat) : C := Csum (fun l => A i l * v l) (seq 0 n).
(** what the solver is given: Hermitian S, orthonormal eigenvectors of S from eig *)
Definition GoodOverlap (eig : eig_oracle) (n : nat) (S : mat) : Prop :=
  hermitian n S /\ eig_contract eig n S /\ orthonormal_columns n (snd (eig n S)).
(** exactly the first k overlap eigenvalues exceed the threshold *)
Definition KeptFirst (eig : eig_oracle) (n : nat) (S : mat) (k : nat) : Prop :=
  (k <= n)%nat /\ forall j, (j < n)%nat -> (1e-15 < Re (nth j (fst (eig n S)) C0))%R <-> (j < k)%nat.
(** eig is correct on every k x k matrix *)
Definition EigCorrect (eig : eig_oracle) (k : nat) : Prop := forall A, eig_contract eig k A.

(** full statement: for every S, also with dropped eigenvalues, and with sorting.  Proved when
    the dropped eigenvalues are the last ones and without sorting: every returned vector lies
    in the span of the kept eigenvectors of S and solves the equation projected on it. *)
Theorem C48_kept_subspace_partial : forall eig n S H k, GoodOverlap eig n S -> KeptFirst eig n S k -> EigCorrect eig k ->
  exists e D, canonical_geig_solve eig n S H false = Ok (e, D) /\ length e = k /\
  forall j, (j < k)%nat ->
    (exists a, forall i, D i j = Csum (fun l => snd (eig n S) i l * a l) (seq 0 k)) /\
    (forall l, (l < k)%nat -> Csum (fun i => Cconj (snd (eig n S) i l) * (mv n H (fun x => D x j) i - nth j e C0 * mv n S (fun x => D x j) i)) (seq 0 n) = C0).
Proof.
  intros eig n S H k (HS & ES & OC) (HK & PK) EC. eexists _, _. split; [rewrite (solve_eq eig n S H ES OC HS k HK PK); reflexivity|].
  split; [apply EC|]. intros j Hj. split.
  - eexists. intros i. apply in_span.
  - intros l Hl. exact (galerkin eig n S H ES OC HS k HK PK (EC _) l j Hl Hj).
Qed.
(** nothing dropped: the pairs solve H c = e S c *)
Theorem C48_full_rank_partial : forall eig n S H, GoodOverlap eig n S -> orthonormal_rows n (snd (eig n S)) -> KeptFirst eig n S n -> EigCorrect eig n ->
  exists e D, canonical_geig_solve eig n S H false = Ok (e, D) /\ length e = n /\
  forall i j, (i < n)%nat -> (j < n)%nat -> mv n H (fun x => D x j) i = nth j e C0 * mv n S (fun x => D x j) i.
Proof.
  intros eig n S H HG OR HK EC. destruct (C48_kept_subspace_partial eig n S H n HG HK EC) as (e & D & E & L & A). exists e, D. split; [exact E|]. split; [exact L|].
  intros i j Hi Hj. destruct (A j Hj) as [_ Z].
  pose proof (full_rank n (snd (eig n S)) (fun a b => mv n H (fun x => D x b) a - nth b e C0 * mv n S (fun x => D x b) a) OR j Z i Hi) as E0.
  cbv beta in E0. match type of E0 with ?a - ?b = _ => transitivity (a - b + b); [ring|rewrite E0; ring] end.
Qed.
(** with sorting the eigenvalues are the same, in order of increasing real part *)
Lemma insert_sorted x l : StronglySorted (fun a b => Re (fst a) <= Re (fst b))%R l -> StronglySorted (fun a b => Re (fst a) <= Re (fst b))%R (insert_pair Rleb x l).
Proof.
  induction 1 as [|y l HS IH HF]; [constructor; [constructor|constructor]|]. cbn. unfold Rleb at 1. destruct (Rltb_spec (Re (fst y)) (Re (fst x))) as [HL|HL]; cbn.
  - constructor; [exact IH|]. eapply Permutation_Forall; [symmetry; apply insert_perm|]. constructor; [lra|exact HF].
  - constructor; [constructor; assumption|]. constructor; [lra|]. eapply Forall_impl; [|exact HF]. intros a Ha. lra.
Qed.
Theorem C48_sorted_energies : forall eig n S H e D, canonical_geig_solve eig n S H false = Ok (e, D) ->
  exists e' D', canonical_geig_solve eig n S H true = Ok (e', D') /\ Permutation e' e /\ StronglySorted (fun a b => Re a <= Re b)%R e'.
Proof.
  intros eig n S H e D E. unfold canonical_geig_solve in *. destruct (keep_eigenvalues _) as [s'|]; [|discriminate]. cbn [bind] in *. cbv zeta in *. injection E as <- <-.
  set (e := fst (eig (length s') _)). eexists _, _. split; [reflexivity|].
  assert (HM : map (fun p => nth (snd p) e C0) (sorted_largest_idxs e false) = map fst (sorted_largest_idxs e false)).
  { apply map_ext_in. intros p Hp. apply (Permutation_in _ (sorted_perm e false)) in Hp. destruct p as [v i]. cbn [fst snd].
    assert (HG : forall l a, In (v, i) (combine l (seq a (length l))) -> (a <= i)%nat /\ nth (i - a) l C0 = v).
    { induction l as [|x l IH]; intros a Hi; [destruct Hi|]. cbn [length seq combine] in Hi. destruct Hi as [Hi|Hi]; [injection Hi as -> ->; rewrite Nat.sub_diag; split; [lia|reflexivity]|].
      destruct (IH _ Hi) as [H1 H2]. split; [lia|]. replace (i - a)%nat with (Datatypes.S (i - Datatypes.S a)) by lia. exact H2. }
    destruct (HG e 0%nat Hp) as [_ HN]. rewrite Nat.sub_0_r in HN. exact HN. }
  rewrite HM. split.
  - rewrite (sorted_perm e false). clear. assert (G : forall l a, map fst (combine l (seq a (length l))) = l :> list C) by (induction l as [|x l IH]; intros a; cbn; [reflexivity|f_equal; apply IH]). rewrite G. reflexivity.
  - assert (HS : StronglySorted (fun a b => Re (fst a) <= Re (fst b))%R (sorted_largest_idxs e false)).
    { unfold sorted_largest_idxs. induction (combine e _) as [|x l IH]; [constructor|]. cbn [fold_right]. apply insert_sorted, IH. }
    revert HS. clear. induction 1 as [|x l HS IH HF]; cbn [map]; constructor; [exact IH|]. apply Forall_map. exact HF.
Qed.
(** a non-Hermitian S with an eigenvalue above the axis is rejected *)
Theorem C48_imaginary_rejected : forall eig n S H sort, Exists (fun x => 1e-12 < Im x)%R (fst (eig n S)) -> canonical_geig_solve eig n S H sort = Throw (PyError "ValueError").
Proof. intros eig n S H sort HE. unfold canonical_geig_solve. rewrite keep_raises by exact HE. reflexivity. Qed.

(** ---- counterexamples: an eigensolver that is right for diagonal matrices ---- *)
Definition diag_eig : eig_oracle := fun n A => (map (fun i => A i i) (seq 0 n), delta).
Lemma diag_eig_ok n A : (forall i j, i <> j -> A i j = C0) -> eig_contract diag_eig n A.
Proof.
  intros HD. split; [unfold diag_eig; cbn [fst]; rewrite map_length, seq_length; reflexivity|]. intros i j Hi Hj. unfold diag_eig. cbn [fst snd].
  assert (E : nth j (map (fun i => A i i) (seq 0 n)) C0 = A j j).
  { rewrite (nth_indep _ C0 (A 0 0)%nat) by (rewrite map_length, seq_length; exact Hj). rewrite (map_nth (fun i => A i i)), seq_nth by exact Hj. reflexivity. }
  rewrite E. transitivity (A i j).
  - unfold mdot. transitivity (Csum (fun l => delta j l * A i l) (seq 0 n)); [|apply (Csum_delta (A i)); lia]. apply Csum_ext. intros l _. unfold delta. rewrite (Nat.eqb_sym l j). ring.
  - unfold delta. destruct (Nat.eqb_spec i j) as [->|N]; [ring|]. rewrite HD by exact N. ring.
Qed.
Definition diagm (a b : R) : mat := fun i j => if Nat.eqb i j then (if Nat.eqb i 0 then RtoC a else RtoC b) else C0.
Lemma diagm_diag a b i j : i <> j -> diagm a b i j = C0.
Proof. intros N. unfold diagm. destruct (Nat.eqb_spec i j); [contradiction|reflexivity]. Qed.
(** sorting: for S = 1 and H = diag(1, 0) the first returned energy is 0, but its vector is
    the eigenvector of energy 1 *)
Theorem C48_sorted_vectors_refuted : exists e D, GoodOverlap diag_eig 2 (diagm 1 1) /\ KeptFirst diag_eig 2 (diagm 1 1) 2 /\
  canonical_geig_solve diag_eig 2 (diagm 1 1) (diagm 1 0) true = Ok (e, D) /\ nth 0 e C0 = C0 /\
  mv 2 (diagm 1 0) (fun x => D x 0%nat) 0 = C1 /\ mv 2 (diagm 1 1) (fun x => D x 0%nat) 0 = C1.
Proof.
  assert (HK : keep_eigenvalues [RtoC 1; RtoC 1] = Ok [1%R; 1%R]).
  { rewrite keep_ok; [|repeat constructor; cbn; lra]. cbn [filter]. rewrite !Rltb_true by (cbn; lra). reflexivity. }
  unfold canonical_geig_solve. change (fst (diag_eig 2 (diagm 1 1))) with [RtoC 1; RtoC 1]. rewrite HK. cbn [bind]. cbv zeta. cbn [length].
  change (snd (diag_eig 2 (diagm 1 1))) with delta. change (snd (diag_eig 2 (H_prime 2 (X_prime delta [1%R; 1%R]) (diagm 1 0)))) with delta.
  assert (HE : fst (diag_eig 2 (H_prime 2 (X_prime delta [1%R; 1%R]) (diagm 1 0))) = [C1; C0]).
  { unfold diag_eig, H_prime, mdot, X_prime, madj, diagm, delta. cbn [fst seq map nth]. rewrite !Csum_cons, !Csum_nil. cbn [Nat.eqb]. rewrite sqrt_1, Rinv_1. f_equal; [csolve|]. f_equal. csolve. }
  rewrite HE.
  assert (HI : sorted_largest_idxs [C1; C0] false = [(C0, 1%nat); (C1, 0%nat)]).
  { unfold sorted_largest_idxs. cbn [length seq combine fold_right insert_pair fst]. unfold Rleb. rewrite Rltb_true by (cbn; lra). reflexivity. }
  rewrite HI. eexists _, _. split; [|split; [|split; [reflexivity|]]].
  - split; [|split].
    + intros i j _ _. unfold diagm. rewrite (Nat.eqb_sym i j). destruct (Nat.eqb_spec j i) as [->|]; [destruct (Nat.eqb i 0); csolve|csolve].
    + apply diag_eig_ok, diagm_diag.
    + intros i j Hi Hj. unfold diag_eig. cbn [snd]. unfold mdot, madj.
      transitivity (Csum (fun l => delta i l * delta l j) (seq 0 2)); [|apply (Csum_delta (fun l => delta l j)); lia]. apply Csum_ext. intros l _. unfold delta. rewrite (Nat.eqb_sym l i). destruct (Nat.eqb i l); csolve.
  - split; [lia|]. intros j Hj. change (fst (diag_eig 2 (diagm 1 1))) with [RtoC 1; RtoC 1]. destruct j as [|[|j]]; cbn [nth Re RtoC]; [| |lia]; (split; intros; [lia|cbn; lra]).
  - cbn [map nth snd]. split; [reflexivity|]. unfold mv, mdot, X_prime, diagm, delta. cbn [seq nth snd]. rewrite !Csum_cons, !Csum_nil. cbn [Nat.eqb nth snd seq]. rewrite ?Csum_cons, ?Csum_nil. cbn [Nat.eqb nth snd seq]. rewrite ?sqrt_1, Rinv_1. split; csolve.
Qed.
(** dropping: S = diag(0, 1), H = diag(5, 7).  The only solution with non-zero overlap has
    energy 7; the solver returns 5, with a vector whose overlap norm is 0 *)
Theorem C48_dropped_refuted : exists e D, GoodOverlap diag_eig 2 (diagm 0 1) /\
  canonical_geig_solve diag_eig 2 (diagm 0 1) (diagm 5 7) false = Ok (e, D) /\ e = [RtoC 5] /\
  (forall i, (i < 2)%nat -> mv 2 (diagm 0 1) (fun x => D x 0%nat) i = C0) /\
  (forall v, (forall i, (i < 2)%nat -> mv 2 (diagm 5 7) v i = RtoC 5 * mv 2 (diagm 0 1) v i) -> v 0%nat = C0 /\ v 1%nat = C0).
Proof.
  assert (HK : keep_eigenvalues [RtoC 0; RtoC 1] = Ok [1%R]).
  { rewrite keep_ok; [|repeat constructor; cbn; lra]. cbn [filter]. rewrite (Rltb_true _ (Re (RtoC 1))) by (cbn; lra). unfold Rltb. destruct (Rlt_dec 1e-15 (Re (RtoC 0))) as [l|l]; [cbn in l; lra|reflexivity]. }
  unfold canonical_geig_solve. change (fst (diag_eig 2 (diagm 0 1))) with [RtoC 0; RtoC 1]. rewrite HK. cbn [bind]. cbv zeta. cbn [length].
  change (snd (diag_eig 2 (diagm 0 1))) with delta. change (snd (diag_eig 1 (H_prime 2 (X_prime delta [1%R]) (diagm 5 7)))) with delta.
  eexists _, _. split; [|split; [reflexivity|split; [|split]]].
  - split; [|split].
    + intros i j _ _. unfold diagm. rewrite (Nat.eqb_sym i j). destruct (Nat.eqb_spec j i) as [->|]; [destruct (Nat.eqb i 0); csolve|csolve].
    + apply diag_eig_ok, diagm_diag.
    + intros i j Hi Hj. unfold diag_eig. cbn [snd]. unfold mdot, madj.
      transitivity (Csum (fun l => delta i l * delta l j) (seq 0 2)); [|apply (Csum_delta (fun l => delta l j)); lia]. apply Csum_ext. intros l _. unfold delta. rewrite (Nat.eqb_sym l i). destruct (Nat.eqb i l); csolve.
  - unfold diag_eig, H_prime, mdot, X_prime, madj, diagm, delta. cbn [fst seq map nth]. rewrite !Csum_cons, !Csum_nil. cbn [Nat.eqb]. rewrite sqrt_1, Rinv_1. f_equal. csolve.
  - intros i Hi. unfold mv, mdot, X_prime, diagm, delta. cbn [seq nth]. rewrite !Csum_cons, !Csum_nil. destruct i as [|[|i]]; cbn [Nat.eqb]; [| |lia]; csolve.
  - intros v HV. pose proof (HV 0%nat ltac:(lia)) as H0. pose proof (HV 1%nat ltac:(lia)) as H1. unfold mv, diagm in H0, H1. cbn [seq Nat.eqb] in H0, H1. rewrite !Csum_cons, !Csum_nil in H0, H1.
    destruct (v 0%nat) as [a b], (v 1%nat) as [c d]. unfold RtoC, Cmul, Cadd, C0 in *. cbn in H0, H1. injection H0 as H01 H02. injection H1 as H11 H12. split; f_equal; lra.
Qed.
(** the Hermiticity check looks at one sign only: an eigenvalue below the axis passes *)
Theorem C48_negative_imaginary_refuted : exists e D, canonical_geig_solve diag_eig 1 (fun _ _ => mkC 1 (-1)) (diagm 1 1) false = Ok (e, D) /\ ~ hermitian 1 (fun _ _ => mkC 1 (-1)).
Proof.
  unfold canonical_geig_solve. cbn [diag_eig fst seq map]. rewrite keep_ok by (repeat constructor; cbn; lra). cbn [bind]. eexists _, _. split; [reflexivity|].
  intros HH. specialize (HH 0%nat 0%nat ltac:(lia) ltac:(lia)). unfold Cconj in HH. cbn in HH. injection HH as HH. lra.
Qed.
(** a case meeting the hypotheses of the positive theorems *)
Example C48_nonvacuous : GoodOverlap diag_eig 2 (diagm 3 2) /\ KeptFirst diag_eig 2 (diagm 3 2) 2 /\ orthonormal_rows 2 (snd (diag_eig 2 (diagm 3 2))).
Proof.
  assert (OD : forall i j, (i < 2)%nat -> (j < 2)%nat -> Csum (fun l => delta i l * delta l j) (seq 0 2) = delta i j) by (intros; apply (Csum_delta (fun l => delta l j)); lia).
  split; [split; [|split]|split].
  - intros i j _ _. unfold diagm. rewrite (Nat.eqb_sym i j). destruct (Nat.eqb_spec j i) as [->|]; [destruct (Nat.eqb i 0); csolve|csolve].
  - apply diag_eig_ok, diagm_diag.
  - intros i j Hi Hj. rewrite <- OD by assumption. apply Csum_ext. intros l _. unfold madj, diag_eig, delta. cbn [snd]. rewrite (Nat.eqb_sym l i). destruct (Nat.eqb i l); csolve.
  - split; [lia|]. intros j Hj. change (fst (diag_eig 2 (diagm 3 2))) with [RtoC 3; RtoC 2]. destruct j as [|[|j]]; cbn [nth Re RtoC]; [| |lia]; (split; intros; [lia|cbn; lra]).
  - intros i j Hi Hj. rewrite <- OD by assumption. apply Csum_ext. intros l _. unfold madj, diag_eig, delta. cbn [snd]. rewrite (Nat.eqb_sym j l). destruct (Nat.eqb i l), (Nat.eqb l j); csolve.
Qed.

Print Assumptions C48_kept_subspace_partial. Print Assumptions C48_full_rank_partial. Print Assumptions C48_sorted_energies. Print Assumptions C48_imaginary_rejected.
Print Assumptions C48_sorted_vectors_refuted. Print Assumptions C48_dropped_refuted. Print Assumptions C48_negative_imaginary_refuted.
