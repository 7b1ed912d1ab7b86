(** C60: the spin-adapted pool ("sa_SD"). *)
From Coq Require Import Reals String List Arith NArith ZArith Bool Lia Lra Permutation Sorted.
From Verif Require Import CBase Result Spec SQSpec OperatorModel SQModel SQPhase SQProofs SQPoolSpec SQPoolModel SQPoolProofs SQPoolOps GsdModel GsdProofs.
From Verif Require Import LoopProofs PropPool PropGsd SaModel SaSpec SaFermi SaProofs SaOps.
From Verif Require PropSQ.
Import ListNotations.
Local Open Scope nat_scope.

(** names of the singlet operators, by spatial orbitals *)
Inductive singlet := Single (i a : nat) | Minus (i j a b : nat) | Plus (i j a b : nat).
Definition singlet_act (s : singlet) : state -> state :=
  match s with Single i a => singlet_single i a | Minus i j a b => singlet_minus i j a b | Plus i j a b => singlet_plus i j a b end.
(** the singlets of a determinant with [nocc] doubly occupied orbitals followed by virtual ones *)
Definition Allowed (m nocc : nat) (irreps : list N) (s : singlet) : Prop :=
  match s with
  | Single i a => i < nocc /\ nocc <= a < m /\ total_irrep irreps [2 * i; 2 * a] = 0%N
  | Minus i j a b => i < j < nocc /\ nocc <= a < b /\ b < m /\ total_irrep irreps [2 * i; 2 * j; 2 * a; 2 * b] = 0%N
  | Plus i j a b => i <= j < nocc /\ nocc <= a <= b /\ b < m /\ total_irrep irreps [2 * i; 2 * j; 2 * a; 2 * b] = 0%N
  end.
(** a pool entry with coefficient one whose operator is a real multiple of the singlet, scaled
    so that the squared moduli of its coefficients add up to two *)
Definition IsSinglet (e : C * list fterm) (s : singlet) : Prop :=
  fst e = C1 /\ Csum (fun t => RtoC (Cabs (fcoef t) * Cabs (fcoef t))) (snd e) = RtoC 2 /\
  exists k, k <> 0%R /\ forall psi, fermi_act (snd e) psi = sscale (RtoC k) (singlet_act s psi).

Lemma weight_sum o : Csum (fun t => RtoC (Cabs (fcoef t) * Cabs (fcoef t))) o = RtoC (weight o).
Proof.
  induction o as [|t r IH]; [reflexivity|]. rewrite Csum_cons, IH. cbn [weight fold_right]. fold (weight r). apply C_ext; cbn; ring.
Qed.

(** ---- singles ---- *)
Lemma weight_const w o : (forall t, In t o -> (Cabs (fcoef t) * Cabs (fcoef t))%R = w) -> weight o = (INR (length o) * w)%R.
Proof.
  induction o as [|t r IH]; intros H; [cbn; ring|]. cbn [weight fold_right length]. fold (weight r). rewrite S_INR, IH by (intros; apply H; now right). rewrite H by (now left). ring.
Qed.
Lemma sa_single_spec srt i a : legal_sort srt -> i <> a ->
  exists kept, sq_simplify srt (sa_single i a) = Ok kept /\ IsSinglet (C1, kept) (Single i a).
Proof.
  intros HS Ne. set (u := (1 / sqrt 2)%R).
  assert (Sh : Forall short (sa_single i a)) by (unfold sa_single; cbv zeta; unfold sq_add_term; cbn [app]; repeat (constructor; [left; eexists; eexists; split; reflexivity|]); constructor).
  assert (Q : Forall (fun t => Quantum u (fcoef t)) (sa_single i a)).
  { unfold sa_single. cbv zeta. unfold sq_add_term. cbn [app]. constructor; [apply q1|]. constructor; [apply q1|]. constructor; [apply qm1|]. constructor; [apply qm1|]. constructor. }
  destruct (simplify_quantum srt u _ HS Sh u2 Q) as (kept & E & Act & Co & Nd & All). exists kept. split; [exact E|].
  set (ks := [([2 * a], [2 * i]); ([2 * a + 1], [2 * i + 1]); ([2 * i], [2 * a]); ([2 * i + 1], [2 * a + 1])]).
  assert (Sk : forall k, sumk k (map canon2 (sa_single i a)) = ((if keq ([2 * a], [2 * i])%nat k then RtoC u else C0) + (if keq ([2 * a + 1], [2 * i + 1])%nat k then RtoC u else C0) + (if keq ([2 * i], [2 * a])%nat k then RtoC (- u) else C0) + (if keq ([2 * i + 1], [2 * a + 1])%nat k then RtoC (- u) else C0))%C).
  { intros k. unfold sa_single. cbv zeta. unfold sq_add_term. cbn [app map]. unfold canon2, fcre, fann, fcoef. cbn [fst snd]. unfold sumk. rewrite !Csum_cons, Csum_nil. unfold fkey, fcre, fann, fcoef. cbn [fst snd]. fold u. ring. }
  assert (U : u <> 0%R) by (pose proof u2; fold u in H; lra).
  assert (V : forall k, In k ks -> sumk k (map canon2 (sa_single i a)) = RtoC u \/ sumk k (map canon2 (sa_single i a)) = RtoC (- u)).
  { intros k I. rewrite Sk. unfold ks in I.
    destruct I as [<-|[<-|[<-|[<-|[]]]]]; repeat match goal with |- context [keq ?x ?y] => let K := fresh in destruct (keq_spec x y) as [K|K]; [try (exfalso; injection K; lia)|try (exfalso; now apply K)]; clear K end; try (left; ring); right; ring. }
  assert (P : Permutation (map fkey kept) ks).
  { apply NoDup_Permutation; [exact Nd| |].
    - unfold ks. repeat constructor; cbn [In]; intros H; decompose [or] H; try contradiction; match goal with K : (_, _) = (_, _) |- _ => injection K; lia end.
    - intros k. split.
      + intros I. apply in_map_iff in I. destruct I as (t & <- & I). destruct (Co t I) as (N0 & Ev). rewrite Sk in Ev. unfold ks. cbn [In].
        repeat match type of Ev with context [keq ?x ?y] => let K := fresh in destruct (keq_spec x y) as [K|K]; [rewrite K; tauto|clear K] end. exfalso. apply N0. rewrite <- Ev. ring.
      + intros I. apply All. destruct (V k I) as [-> | ->]; intros K; apply (f_equal Re) in K; cbn in K; lra. }
  assert (L : length kept = 4) by (rewrite <- (map_length fkey kept), (Permutation_length P); reflexivity).
  split; [reflexivity|]. cbn [snd]. split.
  - rewrite weight_sum. rewrite (weight_const (1 / 2)), L; [f_equal; cbn; lra|]. intros t I. destruct (Co t I) as (_ & Ev).
    assert (Ik : In (fkey t) ks) by (eapply Permutation_in; [exact P | apply in_map, I]).
    assert (UU : (u * u = 1 / 2)%R). { unfold u. assert (0 < sqrt 2)%R by (apply sqrt_lt_R0; lra). assert (sqrt 2 * sqrt 2 = 2)%R by (apply sqrt_sqrt; lra). replace (1 / sqrt 2 * (1 / sqrt 2))%R with (1 / (sqrt 2 * sqrt 2))%R by (field; lra). rewrite H0. reflexivity. }
    destruct (V _ Ik) as [K|K]; rewrite K in Ev; rewrite <- Ev, Cabs_RtoC, <- Rabs_mult, Rabs_right; try exact UU; nra.
  - exists u. split; [exact U|]. intros psi. rewrite Act. apply meaning_single.
Qed.

(** ---- doubles ---- *)
Lemma kept_double srt u o s c k0 : legal_sort srt -> Forall short o -> (1e-12 < u)%R -> Forall (fun t => Quantum u (fcoef t)) o -> c <> 0%R ->
  (forall psi, fermi_act o psi = sscale (RtoC c) (singlet_act s psi)) -> sumk k0 (map canon2 o) <> C0 ->
  exists kept, sq_simplify srt o = Ok kept /\ (forall pool, add_nonempty (normalized kept) pool = (pool ++ [(C1, normalized kept)])%list) /\ IsSinglet (C1, normalized kept) s.
Proof.
  intros HS Sh Hu Q Hc Mean Nz. destruct (simplify_quantum srt u o HS Sh Hu Q) as (kept & E & Act & Co & Nd & All). exists kept. split; [exact E|].
  assert (Ne : kept <> []) by (intros ->; apply All in Nz; destruct Nz). destruct (normalized_spec kept Ne) as (k & Hk & En & Hw); [intros t I; apply (Co t I)|].
  split.
  - intros pool. unfold add_nonempty. destruct (Nat.ltb_spec 0 (length (normalized kept))) as [|L]; [reflexivity|]. exfalso. rewrite En in L. unfold sq_mult_coeffs in L. rewrite map_length in L. destruct kept; [now apply Ne|cbn in L; lia].
  - split; [reflexivity|]. cbn [snd]. split; [rewrite weight_sum, Hw; reflexivity|]. exists (k * c)%R. split; [apply Rmult_integral_contrapositive; split; lra|].
    intros psi. rewrite En, fermi_mult, Act, Mean. apply eqs. intros I. unfold sscale. replace (RtoC (k * c)) with (RtoC k * RtoC c)%C by (apply C_ext; cbn; ring). ring.
Qed.
Lemma kept_empty srt u o : legal_sort srt -> Forall short o -> (1e-12 < u)%R -> Forall (fun t => Quantum u (fcoef t)) o ->
  (forall k, sumk k (map canon2 o) = C0) -> sq_simplify srt o = Ok [].
Proof.
  intros HS Sh Hu Q Z. destruct (simplify_quantum srt u o HS Sh Hu Q) as (kept & E & _ & Co & _). destruct kept as [|t r]; [exact E|]. exfalso. destruct (Co t (or_introl eq_refl)) as (N0 & Ev). apply N0. rewrite <- Ev. apply Z.
Qed.
Definition sa_body (srt : sorter) (i j a b : nat) (pool : sqpool) : res sqpool :=
  do ta <- sq_simplify srt (sa_double_a i j a b);
  do tb <- sq_simplify srt (sa_double_b i j a b);
  Ok (add_nonempty (normalized tb) (add_nonempty (normalized ta) pool)).
Definition doubles_of (i j a b : nat) : list singlet := (if Nat.ltb i j && Nat.ltb a b then [Minus i j a b] else []) ++ [Plus i j a b].
Lemma sa_body_spec srt i j a b pool : legal_sort srt -> i <= j -> j < a -> a <= b ->
  exists added, sa_body srt i j a b pool = Ok (pool ++ added)%list /\ Forall2 IsSinglet added (doubles_of i j a b).
Proof.
  intros HS L1 L2 L3. unfold sa_body, doubles_of. destruct (hyp_a i j a b) as (Sa & Qa), (hyp_b i j a b) as (Sb & Qb).
  destruct (nonempty_b i j a b L1 L2 L3) as (n & Hb).
  assert (Hb' : sumk (two (2 * a) (2 * b + 1), two (2 * i) (2 * j + 1)) (map canon2 (sa_double_b i j a b)) <> C0).
  { rewrite Hb. intros K. apply (f_equal Re) in K. cbn [Re RtoC C0] in K. pose proof (lt_0_INR (S n) ltac:(lia)). nra. }
  destruct (kept_double srt (1 / 2) _ (Plus i j a b) (- (1 / 2)) (two (2 * a) (2 * b + 1), two (2 * i) (2 * j + 1)) HS Sb ltac:(lra) Qb ltac:(lra)) as (tb & Eb & Ab & Ib).
  { intros psi. apply meaning_b; lia. }
  { exact Hb'. }
  destruct (Nat.ltb_spec i j) as [Lij|Lij]; [destruct (Nat.ltb_spec a b) as [Lab|Lab]|].
  - pose proof u12 as U. destruct (kept_double srt (1 / sqrt 12) _ (Minus i j a b) (- (1 / sqrt 12)) (two (2 * a) (2 * b), two (2 * i) (2 * j)) HS Sa u12 Qa ltac:(lra)) as (ta & Ea & Aa & Ia).
    { intros psi. apply meaning_a; lia. }
    { rewrite nonempty_a by lia. intros K. apply (f_equal Re) in K. cbn [Re RtoC C0] in K. lra. }
    rewrite Ea, Eb. cbn [bind]. rewrite Aa, Ab. exists [(C1, normalized ta); (C1, normalized tb)]. split; [now rewrite <- app_assoc|]. constructor; [exact Ia|]. constructor; [exact Ib|constructor].
  - rewrite (kept_empty srt (1 / sqrt 12) (sa_double_a i j a b) HS Sa u12 Qa) by (intros; apply empty_a; lia). rewrite Eb. cbn [bind]. change (add_nonempty (normalized []) pool) with pool. rewrite Ab. exists [(C1, normalized tb)]. split; [reflexivity|]. constructor; [exact Ib|constructor].
  - rewrite (kept_empty srt (1 / sqrt 12) (sa_double_a i j a b) HS Sa u12 Qa) by (intros; apply empty_a; lia). rewrite Eb. cbn [bind]. change (add_nonempty (normalized []) pool) with pool. rewrite Ab. exists [(C1, normalized tb)]. split; [reflexivity|]. constructor; [exact Ib|constructor].
Qed.

(** ---- loops ---- *)
Lemma foreach_collect {A S L} (R : S -> L -> Prop) (lab : A -> list L) (body : A -> list S -> res (list S)) l :
  (forall x pool, In x l -> exists added, body x pool = Ok (pool ++ added)%list /\ Forall2 R added (lab x)) ->
  forall pool, exists added, foreach l body pool = Ok (pool ++ added)%list /\ Forall2 R added (flat_map lab l).
Proof.
  induction l as [|x r IH]; intros H pool; [exists []; rewrite app_nil_r; split; [reflexivity|constructor]|].
  destruct (H x pool (or_introl eq_refl)) as (a1 & E1 & F1). cbn [foreach flat_map]. rewrite E1. cbn [bind].
  destruct (IH (fun y q I => H y q (or_intror I)) (pool ++ a1)%list) as (a2 & E2 & F2). exists (a1 ++ a2)%list. rewrite app_assoc. split; [exact E2 | now apply Forall2_app].
Qed.
Definition singles_labels (irreps : list N) (nocc nvir : nat) : list singlet :=
  flat_map (fun i => flat_map (fun a => if N.eqb (total_irrep irreps [2 * i; 2 * (nocc + a)]) 0 then [Single i (nocc + a)] else []) (seq 0 nvir)) (seq 0 nocc).
Definition doubles_labels (irreps : list N) (nocc nvir : nat) : list singlet :=
  flat_map (fun i => flat_map (fun j => flat_map (fun a => flat_map (fun b =>
    if N.eqb (total_irrep irreps [2 * i; 2 * j; 2 * (nocc + a); 2 * (nocc + b)]) 0 then doubles_of i j (nocc + a) (nocc + b) else [])
    (seq a (nvir - a))) (seq 0 nvir)) (seq i (nocc - i))) (seq 0 nocc).
Lemma sa_run srt sp nocc nvir : legal_sort srt -> n_occ_alpha sp = Z.of_nat nocc -> n_occ_beta sp = Z.of_nat nocc -> n_vir_alpha sp = Z.of_nat nvir -> nocc + nvir <= length (orb_irreps sp) ->
  forall pool, exists added, fill_pool_sa srt sp pool = Ok (pool ++ added)%list /\ Forall2 IsSinglet added (singles_labels (orb_irreps sp) nocc nvir ++ doubles_labels (orb_irreps sp) nocc nvir).
Proof.
  intros HS Ea Eb Ev HL pool. unfold fill_pool_sa. rewrite Ea, Eb, Ev, Z.eqb_refl, !Nat2Z.id. cbn [negb]. cbv zeta.
  set (irr := orb_irreps sp) in *.
  match goal with |- context [foreach (seq 0 nocc) ?B pool] =>
    destruct (foreach_collect IsSinglet (fun i => flat_map (fun a => if N.eqb (total_irrep irr [2 * i; 2 * (nocc + a)]) 0 then [Single i (nocc + a)] else []) (seq 0 nvir)) B (seq 0 nocc)) with (pool := pool) as (A1 & E1 & F1) end.
  { intros i p Ii. apply in_seq in Ii. apply foreach_collect. intros a q Ia. apply in_seq in Ia.
    replace (2 * nocc + 2 * a) with (2 * (nocc + a)) by lia. rewrite (irreps_in irr (nocc + nvir)) by (exact HL || (repeat (constructor; [lia|]); constructor)). cbn [bind].
    destruct (N.eqb _ 0); [|exists []; rewrite app_nil_r; split; [reflexivity|constructor]].
    destruct (sa_single_spec srt i (nocc + a) HS ltac:(lia)) as (t & E & Hs). rewrite E. cbn [bind]. exists [(C1, t)]. split; [reflexivity|]. constructor; [exact Hs|constructor]. }
  rewrite E1. cbn [bind].
  match goal with |- context [foreach (seq 0 nocc) ?B ?P] =>
    destruct (foreach_collect IsSinglet (fun i => flat_map (fun j => flat_map (fun a => flat_map (fun b =>
    if N.eqb (total_irrep irr [2 * i; 2 * j; 2 * (nocc + a); 2 * (nocc + b)]) 0 then doubles_of i j (nocc + a) (nocc + b) else [])
    (seq a (nvir - a))) (seq 0 nvir)) (seq i (nocc - i))) B (seq 0 nocc)) with (pool := P) as (A2 & E2 & F2) end.
  { intros i p Ii. apply in_seq in Ii. apply foreach_collect. intros j p2 Ij. apply in_seq in Ij. apply foreach_collect. intros a p3 Ia. apply in_seq in Ia. apply foreach_collect. intros b p4 Ib. apply in_seq in Ib.
    replace (2 * nocc + 2 * a) with (2 * (nocc + a)) by lia. replace (2 * nocc + 2 * b) with (2 * (nocc + b)) by lia.
    rewrite (irreps_in irr (nocc + nvir)) by (exact HL || (repeat (constructor; [lia|]); constructor)). cbn [bind].
    destruct (N.eqb _ 0); [|exists []; rewrite app_nil_r; split; [reflexivity|constructor]].
    apply (sa_body_spec srt i j (nocc + a) (nocc + b) p4 HS); lia. }
  exists (A1 ++ A2)%list. rewrite app_assoc. split; [exact E2|]. now apply Forall2_app.
Qed.

(** ---- labels ---- *)
Lemma NoDup_flat_map {A B} (f : A -> list B) l : NoDup l -> (forall x, In x l -> NoDup (f x)) -> (forall x y z, In x l -> In y l -> In z (f x) -> In z (f y) -> x = y) -> NoDup (flat_map f l).
Proof.
  induction 1 as [|x r Nx _ IH]; intros Hn Hd; [constructor|]. cbn [flat_map]. apply NoDup_app_disj.
  - apply Hn. now left.
  - apply IH; [intros; apply Hn; now right | intros y z w Iy Iz; apply Hd; now right].
  - intros z I1 I2. apply in_flat_map in I2. destruct I2 as (y & Iy & I2). assert (x = y) by (apply (Hd x y z); [now left | now right | exact I1 | exact I2]). now subst.
Qed.
Lemma singles_in irr nocc nvir s : In s (singles_labels irr nocc nvir) <-> exists i a, s = Single i a /\ Allowed (nocc + nvir) nocc irr s.
Proof.
  unfold singles_labels. rewrite in_flat_map. split.
  - intros (i & Ii & I). apply in_flat_map in I. destruct I as (a & Ia & I). apply in_seq in Ii, Ia. destruct (N.eqb_spec (total_irrep irr [2 * i; 2 * (nocc + a)]) 0) as [Z|]; [|destruct I].
    destruct I as [<-|[]]. exists i, (nocc + a). split; [reflexivity|]. cbn [Allowed]. split; [lia|]. split; [lia|exact Z].
  - intros (i & a & -> & L1 & L2 & Z). exists i. split; [apply in_seq; lia|]. apply in_flat_map. exists (a - nocc). split; [apply in_seq; lia|]. replace (nocc + (a - nocc)) with a by lia. rewrite Z. now left.
Qed.
Lemma doubles_in irr nocc nvir s : In s (doubles_labels irr nocc nvir) <-> (forall i a, s <> Single i a) /\ Allowed (nocc + nvir) nocc irr s.
Proof.
  unfold doubles_labels. rewrite in_flat_map. split.
  - intros (i & Ii & I). apply in_flat_map in I. destruct I as (j & Ij & I). apply in_flat_map in I. destruct I as (a & Ia & I). apply in_flat_map in I. destruct I as (b & Ib & I). apply in_seq in Ii, Ij, Ia, Ib.
    destruct (N.eqb_spec (total_irrep irr [2 * i; 2 * j; 2 * (nocc + a); 2 * (nocc + b)]) 0) as [Z|]; [|destruct I]. unfold doubles_of in I. apply in_app_iff in I. destruct I as [I|[<-|[]]].
    + destruct (Nat.ltb_spec i j); [|destruct I]. destruct (Nat.ltb_spec (nocc + a) (nocc + b)); [|destruct I]. destruct I as [<-|[]]. split; [discriminate|]. cbn [Allowed]. split; [lia|]. split; [lia|]. split; [lia|exact Z].
    + split; [discriminate|]. cbn [Allowed]. split; [lia|]. split; [lia|]. split; [lia|exact Z].
  - assert (G : forall i j a b, i <= j < nocc -> nocc <= a <= b -> b < nocc + nvir -> total_irrep irr [2 * i; 2 * j; 2 * a; 2 * b] = 0%N -> In s (doubles_of i j a b) ->
      exists x, In x (seq 0 nocc) /\ In s (flat_map (fun j0 => flat_map (fun a0 => flat_map (fun b0 => if N.eqb (total_irrep irr [2 * x; 2 * j0; 2 * (nocc + a0); 2 * (nocc + b0)]) 0 then doubles_of x j0 (nocc + a0) (nocc + b0) else []) (seq a0 (nvir - a0))) (seq 0 nvir)) (seq x (nocc - x)))).
    { intros i j a b L1 L2 L3 Z I. exists i. split; [apply in_seq; lia|]. apply in_flat_map. exists j. split; [apply in_seq; lia|]. apply in_flat_map. exists (a - nocc). split; [apply in_seq; lia|].
      apply in_flat_map. exists (b - nocc). split; [apply in_seq; lia|]. replace (nocc + (a - nocc)) with a by lia. replace (nocc + (b - nocc)) with b by lia. rewrite Z. exact I. }
    destruct s as [i a|i j a b|i j a b]; intros (Ns & H); cbn [Allowed] in H.
    + exfalso. now apply (Ns i a).
    + destruct H as (L1 & L2 & L3 & Z). apply (G i j a b); try lia; try assumption. unfold doubles_of. destruct (Nat.ltb_spec i j); [|lia]. destruct (Nat.ltb_spec a b); [|lia]. now left.
    + destruct H as (L1 & L2 & L3 & Z). apply (G i j a b); try lia; try assumption. unfold doubles_of. apply in_or_app. right. now left.
Qed.
Definition coords (s : singlet) : nat * nat * nat * nat := match s with Single i a => (i, 0, a, 0) | Minus i j a b | Plus i j a b => (i, j, a, b) end.
Lemma doubles_of_coords i j a b s : In s (doubles_of i j a b) -> coords s = (i, j, a, b).
Proof. unfold doubles_of. intros I. apply in_app_iff in I. destruct I as [I|[<-|[]]]; [|reflexivity]. destruct (_ && _); [|destruct I]. destruct I as [<-|[]]. reflexivity. Qed.
Lemma singles_nodup irr nocc nvir : NoDup (singles_labels irr nocc nvir).
Proof.
  apply NoDup_flat_map; [apply seq_NoDup| |].
  - intros i _. apply NoDup_flat_map; [apply seq_NoDup|intros a _; destruct (N.eqb _ _); repeat constructor; intros []|].
    intros x y z _ _ Ix Iy. destruct (N.eqb _ _) in Ix; [|destruct Ix]. destruct (N.eqb _ _) in Iy; [|destruct Iy]. destruct Ix as [<-|[]], Iy as [K|[]]. injection K. lia.
  - intros x y z _ _ Ix Iy. apply in_flat_map in Ix, Iy. destruct Ix as (a & _ & Ix), Iy as (b & _ & Iy). destruct (N.eqb _ _) in Ix; [|destruct Ix]. destruct (N.eqb _ _) in Iy; [|destruct Iy]. destruct Ix as [<-|[]], Iy as [K|[]]. now injection K.
Qed.
Lemma doubles_nodup irr nocc nvir : NoDup (doubles_labels irr nocc nvir).
Proof.
  assert (C4 : forall i j a b z, In z (if N.eqb (total_irrep irr [2 * i; 2 * j; 2 * (nocc + a); 2 * (nocc + b)]) 0 then doubles_of i j (nocc + a) (nocc + b) else []) -> coords z = (i, j, nocc + a, nocc + b)).
  { intros i j a b z I. destruct (N.eqb _ _); [now apply doubles_of_coords | destruct I]. }
  apply NoDup_flat_map; [apply seq_NoDup| |].
  - intros i _. apply NoDup_flat_map; [apply seq_NoDup| |].
    + intros j _. apply NoDup_flat_map; [apply seq_NoDup| |].
      * intros a _. apply NoDup_flat_map; [apply seq_NoDup| |].
        -- intros b _. destruct (N.eqb _ _); [|constructor]. unfold doubles_of. destruct (_ && _); cbn [app]; repeat constructor; cbn [In]; intuition discriminate.
        -- intros x y z _ _ Ix Iy. apply C4 in Ix, Iy. rewrite Ix in Iy. injection Iy. lia.
      * intros x y z _ _ Ix Iy. apply in_flat_map in Ix, Iy. destruct Ix as (b1 & _ & Ix), Iy as (b2 & _ & Iy). apply C4 in Ix, Iy. rewrite Ix in Iy. injection Iy. lia.
    + intros x y z _ _ Ix Iy. apply in_flat_map in Ix, Iy. destruct Ix as (a1 & _ & Ix), Iy as (a2 & _ & Iy). apply in_flat_map in Ix, Iy. destruct Ix as (b1 & _ & Ix), Iy as (b2 & _ & Iy). apply C4 in Ix, Iy. rewrite Ix in Iy. injection Iy. lia.
  - intros x y z _ _ Ix Iy. apply in_flat_map in Ix, Iy. destruct Ix as (j1 & _ & Ix), Iy as (j2 & _ & Iy). apply in_flat_map in Ix, Iy. destruct Ix as (a1 & _ & Ix), Iy as (a2 & _ & Iy). apply in_flat_map in Ix, Iy. destruct Ix as (b1 & _ & Ix), Iy as (b2 & _ & Iy). apply C4 in Ix, Iy. rewrite Ix in Iy. injection Iy. lia.
Qed.

(** ---- orbital counts ---- *)
Lemma count_sum want f : forall m ref, length ref = 2 * m ->
  count_spin true want f ref = fold_right Z.add 0%Z (map (fun k => f (nth (2 * k + (if want then 0 else 1)) ref 0%Z)) (seq 0 m)).
Proof.
  induction m as [|m IH]; intros ref L; [destruct ref; [reflexivity|discriminate]|]. destruct ref as [|x [|y r]]; try (cbn in L; lia). cbn [count_spin negb].
  rewrite (IH r) by (cbn in L; lia). rewrite <- cons_seq, <- seq_shift. cbn [map fold_right]. rewrite map_map.
  rewrite (map_ext _ (fun k => f (nth (2 * S k + (if want then 0 else 1)) (x :: y :: r) 0%Z)));
    [|intros k; replace (2 * S k + (if want then 0 else 1)) with (S (S (2 * k + (if want then 0 else 1)))) by lia; reflexivity].
  destruct want; cbn [Bool.eqb nth Nat.mul Nat.add]; ring.
Qed.
Lemma electrons_sum s D : forall m, Z.of_nat (electrons s m D) = fold_right Z.add 0%Z (map (fun k => if occ D (2 * k + s) then 1%Z else 0%Z) (seq 0 m)).
Proof.
  induction m as [|m IH]; [reflexivity|]. cbn [electrons]. rewrite Nat2Z.inj_add, IH, seq_S, map_app. cbn [map Nat.add].
  assert (A : forall l x, fold_right Z.add 0%Z (l ++ [x]) = (fold_right Z.add 0%Z l + x)%Z) by (induction l as [|y l IHl]; intros x; cbn [app fold_right]; [ring | rewrite IHl; ring]).
  rewrite A. destruct (occ D (2 * m + s)); reflexivity.
Qed.
Lemma electrons_le s D m : electrons s m D <= m.
Proof. induction m as [|m IH]; cbn [electrons]; [lia|]. destruct (occ D (2 * m + s)); lia. Qed.
Lemma virt_sum s D : forall m, (Z.of_nat m - Z.of_nat (electrons s m D))%Z = fold_right Z.add 0%Z (map (fun k => if occ D (2 * k + s) then 0%Z else 1%Z) (seq 0 m)).
Proof.
  induction m as [|m IH]; [reflexivity|]. cbn [electrons]. rewrite seq_S, map_app. cbn [map Nat.add].
  assert (A : forall l x, fold_right Z.add 0%Z (l ++ [x]) = (fold_right Z.add 0%Z l + x)%Z) by (induction l as [|y l IHl]; intros x; cbn [app fold_right]; [ring | rewrite IHl; ring]).
  rewrite A, <- IH. destruct (occ D (2 * m + s)); lia.
Qed.
Lemma counts m ref R irr sp : Reference m ref R -> set_orb_spaces ref irr = Ok sp ->
  n_occ_alpha sp = Z.of_nat (electrons 0 m R) /\ n_occ_beta sp = Z.of_nat (electrons 1 m R) /\ n_vir_alpha sp = Z.of_nat (m - electrons 0 m R) /\ n_vir_beta sp = Z.of_nat (m - electrons 1 m R).
Proof.
  intros (HL & H01 & _ & HO) E. unfold set_orb_spaces in E. rewrite HL in E. replace (Nat.odd (2 * m)) with false in E by (rewrite Nat.odd_mul; reflexivity). injection E as <-. cbn [n_occ_alpha n_occ_beta n_vir_alpha n_vir_beta].
  assert (Z1 : forall p, p < 2 * m -> nth p ref 0%Z = (if occ R p then 1 else 0)%Z).
  { intros p Lp. rewrite (HO p Lp). rewrite Forall_forall in H01. destruct (H01 (nth p ref 0%Z)) as [-> | ->]; [apply nth_In; lia| |]; reflexivity. }
  rewrite !(count_sum _ _ m ref HL), !Nat2Z.inj_sub by apply electrons_le. rewrite !electrons_sum.
  assert (V : forall s, (Z.of_nat m - fold_right Z.add 0%Z (map (fun k => if occ R (2 * k + s) then 1%Z else 0%Z) (seq 0 m)))%Z = fold_right Z.add 0%Z (map (fun k => if occ R (2 * k + s) then 0%Z else 1%Z) (seq 0 m))).
  { intros s. rewrite <- electrons_sum. apply virt_sum. }
  rewrite !V. split; [|split; [|split]]; f_equal; apply map_ext_in; intros k I; apply in_seq in I; rewrite Z1 by lia; destruct (occ R _); reflexivity.
Qed.
Lemma spaces_irr m ref irr : length ref = 2 * m -> Irreps m irr -> exists sp, set_orb_spaces ref irr = Ok sp /\ m <= length (orb_irreps sp) /\ forall l, total_irrep (orb_irreps sp) l = total_irrep irr l.
Proof.
  intros HL HI. unfold set_orb_spaces. rewrite HL. replace (Nat.odd (2 * m)) with false by (rewrite Nat.odd_mul; reflexivity).
  set (sp := mkSpaces _ _ _ _ _ _ _). exists sp. split; [reflexivity|].
  unfold sp. cbn [orb_irreps]. destruct HI as [->|HI].
  - rewrite div_even, repeat_length. split; [lia|]. intros l. unfold total_irrep. f_equal. apply map_ext. intros p. transitivity 0%N; [apply nth_repeat|destruct (p / 2); reflexivity].
  - destruct irr as [|x irr]; [cbn in HI; assert (m = 0) by lia; subst m; split; [cbn; lia|reflexivity] | split; [exact HI|reflexivity]].
Qed.
Lemma allowed_irr m n irr irr' s : (forall l, total_irrep irr l = total_irrep irr' l) -> Allowed m n irr s <-> Allowed m n irr' s.
Proof. intros H. destruct s; cbn [Allowed]; rewrite H; reflexivity. Qed.

(** For a reference with as many alpha as beta electrons, say [electrons 0 m R], the pool holds
    exactly one entry for each allowed singlet of that many doubly occupied orbitals, and
    nothing else; otherwise filling throws. *)
Theorem C60_sa_pool : forall srt, legal_sort srt -> forall m ref R irreps, Reference m ref R -> Irreps m irreps ->
  exists sp, set_orb_spaces ref irreps = Ok sp /\
    (electrons 0 m R <> electrons 1 m R -> fill_pool srt sp "sa_SD" [] = Throw InvalidArg) /\
    (electrons 0 m R = electrons 1 m R -> exists pool labels, fill_pool srt sp "sa_SD" [] = Ok pool /\
      Forall2 IsSinglet pool labels /\ NoDup labels /\ forall s, In s labels <-> Allowed m (electrons 0 m R) irreps s).
Proof.
  intros srt HS m ref R irr HR HI. destruct (spaces_irr m ref irr (proj1 HR) HI) as (sp & E & Hm & HT). exists sp. split; [exact E|].
  destruct (counts m ref R irr sp HR E) as (Ca & Cb & Cv & _). change (fill_pool srt sp "sa_SD" []) with (fill_pool_sa srt sp []). split.
  - intros Ne. unfold fill_pool_sa. destruct (Z.eqb_spec (n_occ_alpha sp) (n_occ_beta sp)) as [K|_]; [|reflexivity]. exfalso. apply Ne. rewrite Ca, Cb in K. now apply Nat2Z.inj.
  - intros Eq. set (nocc := electrons 0 m R) in *. pose proof (electrons_le 0 R m) as Le. fold nocc in Le. rewrite <- Eq in Cb.
    destruct (sa_run srt sp nocc (m - nocc) HS Ca Cb Cv ltac:(lia) []) as (pool & Ep & F). exists pool. eexists. split; [exact Ep|]. split; [exact F|]. split.
    + apply NoDup_app_disj; [apply singles_nodup | apply doubles_nodup|]. intros s I1 I2. apply singles_in in I1. apply doubles_in in I2. destruct I1 as (i & a & -> & _), I2 as (Ns & _). now apply (Ns i a).
    + intros s. rewrite in_app_iff, singles_in, doubles_in. replace (nocc + (m - nocc)) with m by lia. pose proof (allowed_irr m nocc _ _ s HT) as AI. split; [intros [(i & a & _ & H)|(_ & H)]; apply AI; exact H|].
      intros H. apply AI in H. destruct s as [i a|i j a b|i j a b]; [left; exists i, a; auto | right; split; [discriminate|exact H] | right; split; [discriminate|exact H]].
Qed.
Print Assumptions C60_sa_pool.

(** Every operator of the pool commutes with the spin raising and lowering operators, hence
    with their commutator 2 S_z and with S^2. *)
Theorem C60_spin_free : forall m nocc irreps e s, nocc <= m -> Allowed m nocc irreps s -> IsSinglet e s ->
  forall psi, spin_plus m (fermi_act (snd e) psi) = fermi_act (snd e) (spin_plus m psi) /\ spin_minus m (fermi_act (snd e) psi) = fermi_act (snd e) (spin_minus m psi).
Proof.
  intros m nocc irr e s Lm Al (_ & _ & k & _ & Act) psi. rewrite !Act.
  assert (Lin : forall f, (forall a b, f (sadd a b) = sadd (f a) (f b)) -> (forall a b, f (ssub a b) = ssub (f a) (f b)) -> (forall c a, f (sscale c a) = sscale c (f a)) ->
    (forall p q a, p < m -> q < m -> f (transfer p q a) = transfer p q (f a)) -> f (sscale (RtoC k) (singlet_act s psi)) = sscale (RtoC k) (singlet_act s (f psi))).
  { intros f Fa Fs Fc Ft. rewrite Fc. f_equal. destruct s as [i a|i j a b|i j a b]; cbn [Allowed singlet_act] in *.
    - unfold singlet_single. rewrite Fs, !Ft by lia. reflexivity.
    - unfold singlet_minus. rewrite !Fs, !Ft by lia. reflexivity.
    - unfold singlet_plus. rewrite Fs, !Fa, !Ft by lia. reflexivity. }
  split.
  - apply Lin; [intros; rewrite !plus_flip; apply flip_add | intros; rewrite !plus_flip; apply flip_sub | intros; rewrite !plus_flip; apply flip_scale | intros; now apply transfer_plus].
  - apply Lin; [intros; rewrite !minus_flip; apply flip_add | intros; rewrite !minus_flip; apply flip_sub | intros; rewrite !minus_flip; apply flip_scale | intros; now apply transfer_minus].
Qed.
Print Assumptions C60_spin_free.

(** In an aufbau reference the orbitals below the count are the occupied ones, so every entry
    excites occupied into empty orbitals. *)
Theorem C60_aufbau_orbitals : forall m ref R k s, Reference m ref R -> Aufbau m R -> k < m -> s < 2 -> electrons 0 m R = electrons 1 m R ->
  (nth (2 * k + s) ref 0%Z = 1%Z <-> k < electrons 0 m R) /\ (nth (2 * k + s) ref 0%Z = 0%Z <-> electrons 0 m R <= k).
Proof.
  intros m ref R k s (HL & H01 & _ & HO) HA Lk Ls Eq.
  assert (C : electrons s m R = electrons 0 m R) by (destruct s as [|[|]]; [reflexivity|now symmetry|lia]). rewrite <- C. destruct (HA s Ls) as (e & He).
  assert (G : forall n, n <= m -> electrons s n R = min n e).
  { induction n as [|n IH]; intros Ln; [reflexivity|]. cbn [electrons]. rewrite IH, He by lia. destruct (Nat.ltb_spec n e); lia. }
  rewrite (G m) by lia. specialize (He k Lk). rewrite HO in He by lia. rewrite Forall_forall in H01.
  destruct (H01 (nth (2 * k + s) ref 0%Z)) as [E|E]; [apply nth_In; lia| |]; rewrite E in He; rewrite E; destruct (Nat.ltb_spec k e); try discriminate He; clear He; split; split; lia.
Qed.
Print Assumptions C60_aufbau_orbitals.
(** For other closed-shell references this fails: with only the second of three orbitals
    occupied, every pool operator starts from the empty first orbital. *)
Theorem C60_non_aufbau_refuted : exists ref R, Reference 3 ref R /\ electrons 0 3 R = 1 /\ electrons 1 3 R = 1 /\ nth 0 ref 0%Z = 0%Z /\ nth 2 ref 0%Z = 1%Z /\
  (forall i a, Allowed 3 (electrons 0 3 R) [] (Single i a) -> i = 0) /\ Allowed 3 (electrons 0 3 R) [] (Single 0 1).
Proof.
  exists [0; 0; 1; 1; 0; 0]%Z, 12%N. split; [|split; [reflexivity|split; [reflexivity|split; [reflexivity|split; [reflexivity|split]]]]].
  - split; [reflexivity|]. split; [repeat (constructor; [auto|]); constructor|]. split; [reflexivity|]. intros p Hp. do 6 (destruct p as [|p]; [reflexivity|]). cbn in Hp; lia.
  - intros i a (L & _). change (electrons 0 3 12) with 1 in L. lia.
  - split; [cbn; lia|]. split; [cbn; lia|reflexivity].
Qed.
Print Assumptions C60_non_aufbau_refuted.
(** Unknown pool types are rejected without changing the pool. *)
Theorem C60_unknown_type : forall srt sp t pool, ~ In t ["GSD"; "sa_SD"; "S"; "SD"; "SDT"; "SDTQ"; "SDTQP"; "SDTQPH"]%string -> fill_pool srt sp t pool = Throw InvalidArg.
Proof.
  intros srt sp t pool N. unfold fill_pool, fill_pool_excitations, max_nbody_of.
  repeat match goal with |- context [String.eqb t ?c] => destruct (String.eqb_spec t c) as [->|]; [exfalso; apply N; cbn [In]; tauto|] end. reflexivity.
Qed.
Print Assumptions C60_unknown_type.
(** H2 in a minimal basis with symmetry: one operator; without: two *)
Example C60_example : Reference 2 [1; 1; 0; 0]%Z 3 /\ Irreps 2 [0; 5]%N /\ electrons 0 2 3 = 1 /\ electrons 1 2 3 = 1 /\ Aufbau 2 3 /\
  (forall s, Allowed 2 1 [0; 5]%N s <-> s = Plus 0 0 1 1) /\ (forall s, Allowed 2 1 [] s <-> s = Single 0 1 \/ s = Plus 0 0 1 1) /\ ~ In "SDX"%string ["GSD"; "sa_SD"; "S"; "SD"; "SDT"; "SDTQ"; "SDTQP"; "SDTQPH"]%string.
Proof.
  split; [|split; [right; cbn; lia|split; [reflexivity|split; [reflexivity|split; [|split; [|split]]]]]].
  - split; [reflexivity|]. split; [repeat (constructor; [auto|]); constructor|]. split; [reflexivity|]. intros p Hp. do 4 (destruct p as [|p]; [reflexivity|]). cbn in Hp; lia.
  - intros s Hs. exists 1. intros k Hk. destruct s as [|[|s]]; [| |lia]; do 2 (destruct k as [|k]; [reflexivity|]); lia.
  - intros s. split.
    + destruct s as [i a|i j a b|i j a b]; cbn [Allowed].
      * intros (L1 & L2 & Z). assert (i = 0) by lia. assert (a = 1) by lia. subst. discriminate Z.
      * intros (L1 & _). lia.
      * intros (L1 & L2 & L3 & _). f_equal; lia.
    + intros ->. cbn [Allowed]. repeat split; lia.
  - intros s. split.
    + destruct s as [i a|i j a b|i j a b]; cbn [Allowed].
      * intros (L1 & L2 & Z). left. f_equal; lia.
      * intros (L1 & _). lia.
      * intros (L1 & L2 & L3 & _). right. f_equal; lia.
    + intros [-> | ->]; cbn [Allowed]; repeat split; lia.
  - cbn [In]. intuition discriminate.
Qed.
