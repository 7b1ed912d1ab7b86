(** C89: the UCC ansatz circuits conserve the number of electrons, S_z and the irrep. *)
From Coq Require Import Reals String List Arith ZArith NArith Bool Lia Lra Sorted Permutation.
From Verif Require Import CBase Result Bits Spec GateModel OpSpec SQSpec SQModel SQPoolSpec SQPoolModel SQPoolOps ExpSpec ExpProofs AnsatzSpec AnsatzModel SpinSpec GsdModel GsdProofs SaModel AnsatzSa PropPool PropGsd PropAnsatz PropSpin SectorProofs SectorPools.
From Verif Require PropSa PropSQ PropPqeEigen MolModel SectorMol.
Import ListNotations.
Local Open Scope nat_scope.

(** For every choice of operators of the pool and of real amplitudes, in both branches of the
    ansatz and for both kinds of excitation operators, the circuit maps a combination of
    determinants with the electron number, S_z and irrep of I0 to such a combination. *)
Definition KeepsSymmetry (srt : sorter) (sort : term_sorter) (pool_type : string) (m : nat) (irreps : list N) (pool : sqpool) : Prop :=
  forall qe compact tn tops ts, length tops = length ts -> Forall (fun top => top < length pool) tops ->
    (compact = false -> 1 <= tn /\ Forall (fun t => t = 0 \/ 1e-8 < Rabs t)%R ts) ->
    exists U, ansatz_circuit srt sort pool_type compact qe tn pool tops (map RtoC ts) = Ok U /\
      forall I0 psi, (forall I, psi I <> C0 -> SameSymmetry m irreps I0 I) -> forall I, circ_act U psi I <> C0 -> SameSymmetry m irreps I0 I.

Local Notation Sym m irr := (Forall (fun t => Symmetric m irr (fcre t) (fann t))).
Lemma prepared_within m irr call l : Forall (fun x => forall I0 psi, Within (SameSymmetry m irr I0) psi -> Within (SameSymmetry m irr I0) (snd x psi)) l -> Prepares call l ->
  exists U, call = Ok U /\ forall I0 psi, (forall I, psi I <> C0 -> SameSymmetry m irr I0 I) -> forall I, circ_act U psi I <> C0 -> SameSymmetry m irr I0 I.
Proof.
  intros F (U & E & HU). exists U. split; [exact E|]. intros I0 psi W. apply (product_within (SameSymmetry m irr I0) l) with (psi := psi); [|apply HU|exact W]. eapply Forall_impl; [|exact F]. intros x H. apply H.
Qed.
Lemma factors_keep m irr qe pool : Forall (fun e => Sym m irr (snd e)) pool -> forall tops ts, Forall (fun x => forall I0 psi, Within (SameSymmetry m irr I0) psi -> Within (SameSymmetry m irr I0) (snd x psi)) (factors qe pool tops ts).
Proof.
  intros F tops ts. unfold factors. apply Forall_map. apply Forall_forall. intros x _. cbn [snd]. intros I0 psi. apply symmetric_keeps. unfold op_at.
  destruct (nth_in_or_default (fst x) pool (C0, [])) as [I| ->]; [|constructor]. rewrite Forall_forall in F. now apply F.
Qed.
Lemma correct_keeps srt sort t m irr pool : AnsatzCorrect srt sort t pool -> Forall (fun e => Sym m irr (snd e)) pool -> KeepsSymmetry srt sort t m irr pool.
Proof.
  intros HC F qe compact tn tops ts L B Ht. destruct (HC qe tn tops ts L B) as (H1 & H2). destruct compact.
  - apply (prepared_within _ _ _ (factors qe pool tops ts)); [now apply factors_keep|exact H1].
  - destruct (Ht eq_refl) as (Hn & Hs). apply (prepared_within _ _ _ (trotter_steps tn (factors qe pool tops ts))); [|now apply H2].
    apply (PropPqeEigen.steps_conserve (fun A => forall I0 psi, Within (SameSymmetry m irr I0) psi -> Within (SameSymmetry m irr I0) (A psi))). now apply factors_keep.
Qed.

(** the pools "S", "SD", ... of particle-hole excitations of the reference *)
Theorem C89_excitation_pools : forall srt sort, legal_sort srt -> legal_term_sort sort -> forall m ref R irreps t max, Reference m ref R -> FitsInt ref -> Irreps m irreps -> In (t, max) pool_types ->
  exists sp pool, set_orb_spaces ref irreps = Ok sp /\ SaModel.fill_pool srt sp t [] = Ok pool /\ KeepsSymmetry srt sort t m irreps pool.
Proof.
  intros srt sort HS HT m ref R irr t max HR HF HI Ht. destruct (C62_excitation_pools srt sort HS HT m ref R irr t max HR HF HI Ht) as (sp & pool & E & EP & HC). exists sp, pool. split; [exact E|]. split; [exact EP|]. apply correct_keeps; [exact HC|].
  destruct (C32_pool_contents srt HS m ref R irr t max HR HF HI Ht) as (sp' & pool' & dets & E' & EP' & _ & HD & F2). assert (sp' = sp) by congruence. subst sp'.
  assert (Tn : t <> "sa_SD"%string /\ t <> "GSD"%string). { cbn in Ht. repeat (destruct Ht as [Ht|Ht]; [injection Ht as <- <-; split; discriminate|]). destruct Ht. }
  unfold SaModel.fill_pool in EP. rewrite (proj2 (String.eqb_neq _ _) (proj1 Tn)), (proj2 (String.eqb_neq _ _) (proj2 Tn)) in EP. assert (pool' = pool) by congruence. subst pool'.
  clear - HD F2. assert (HD' : forall D, In D dets -> Excited m irr max R D) by (intros D I; now apply HD). clear HD. induction F2 as [|D e dets pool (_ & Pm) F2 IH]; [constructor|]. constructor; [|apply IH; intros D' I; apply HD'; now right].
  apply (permuted_symmetric _ _ _ _ Pm). unfold excitation. apply pair_symmetric, (excitation_symmetric _ _ max), HD'. now left.
Qed.
Theorem C89_gsd_pool : forall srt sort, legal_sort srt -> legal_term_sort sort -> forall m ref irreps, length ref = 2 * m -> Irreps m irreps ->
  exists sp pool, set_orb_spaces ref irreps = Ok sp /\ SaModel.fill_pool srt sp "GSD" [] = Ok pool /\ KeepsSymmetry srt sort "GSD" m irreps pool.
Proof.
  intros srt sort HS HT m ref irr HL HI. destruct (C62_gsd_pool srt sort HS HT m ref irr HL HI) as (sp & pool & E & EP & HC). exists sp, pool. split; [exact E|]. split; [exact EP|]. apply correct_keeps; [exact HC|].
  destruct (C59_gsd_pool srt HS m ref irr HL HI) as (sp' & pool' & E' & EP' & Ha & _). assert (sp' = sp) by congruence. subst sp'. change (SaModel.fill_pool srt sp "GSD" []) with (fill_pool_gsd srt sp []) in EP. assert (pool' = pool) by congruence. subst pool'.
  apply Forall_forall. intros e Ie. destruct (Ha e Ie) as (P & H & G & _ & sg & _ & Pm). apply (permuted_symmetric _ _ _ _ Pm). now apply pair_symmetric, generalized_symmetric.
Qed.
(** the spin-adapted pool *)
Theorem C89_sa_pool : forall srt sort, legal_sort srt -> legal_term_sort sort -> forall m ref R irreps, Reference m ref R -> Irreps m irreps -> electrons 0 m R = electrons 1 m R ->
  exists sp pool, set_orb_spaces ref irreps = Ok sp /\ SaModel.fill_pool srt sp "sa_SD" [] = Ok pool /\ KeepsSymmetry srt sort "sa_SD" m irreps pool.
Proof.
  intros srt sort HS HT m ref R irr HR HI Eq. destruct (C62_sa_pool srt sort HS HT m ref R irr HR HI Eq) as (sp & pool & parts & E & EP & F2 & HC). exists sp, pool. split; [exact E|]. split; [exact EP|].
  destruct (PropSa.counts m ref R irr sp HR E) as (Ca & _ & Cv & _). destruct (PropSa.spaces_irr m ref irr (proj1 HR) HI) as (sp' & E' & Lm & Ti). assert (sp' = sp) by congruence. subst sp'.
  pose proof (sa_symmetric srt sp m _ pool HS Ca Cv (PropSa.electrons_le _ _ _) Lm EP) as F.
  assert (FP : Forall (fun ps => Forall (fun p => Sym m irr (part_op p)) ps) parts).
  { clear - F F2 Ti. induction F2 as [|e ps pool parts Pm F2 IH]; [constructor|]. pose proof (Forall_inv F) as Fe. apply Forall_inv_tail in F. constructor; [|now apply IH]. rewrite Forall_forall in *. intros p Ip. rewrite Forall_forall. intros t It.
    assert (It' : In t (snd e)) by (apply (Permutation_in t (Permutation_sym Pm)), in_flat_map; now exists p). apply Fe in It'. revert It'. clear - Ti. unfold Symmetric. rewrite !Ti. tauto. }
  assert (FF : forall qe tops ts, Forall (fun x => forall I0 psi, Within (SameSymmetry m irr I0) psi -> Within (SameSymmetry m irr I0) (snd x psi)) (split_factors qe parts tops ts)).
  { intros qe tops ts. unfold split_factors. apply Forall_forall. intros x Ix. apply in_flat_map in Ix. destruct Ix as (y & _ & Ix). apply in_map_iff in Ix. destruct Ix as (p & <- & Ip). cbn [snd]. intros I0 psi. apply symmetric_keeps.
    destruct (nth_in_or_default (fst y) parts []) as [I|Z]; [|rewrite Z in Ip; destruct Ip]. rewrite Forall_forall in FP. apply FP in I. rewrite Forall_forall in I. now apply I. }
  intros qe compact tn tops ts L B Ht. destruct (HC qe tn tops ts L B) as (H1 & H2). destruct compact.
  - apply (prepared_within _ _ _ (split_factors qe parts tops ts)); [apply FF|exact H1].
  - destruct (Ht eq_refl) as (Hn & Hs). apply (prepared_within _ _ _ (trotter_steps tn (split_factors qe parts tops ts))); [|now apply H2].
    apply (PropPqeEigen.steps_conserve (fun A => forall I0 psi, Within (SameSymmetry m irr I0) psi -> Within (SameSymmetry m irr I0) (A psi))). apply FF.
Qed.
(** The Hamiltonian assembled from integrals that do not couple different irreps, on the active
    orbitals c .. nmo-v-1, does the same; so it acts within the sector the ansatz explores. *)
Theorem C89_molecular_hamiltonian : forall e nmo c v h g irreps, SectorMol.SymmetricIntegrals irreps h g ->
  forall I0 psi, (forall I, psi I <> C0 -> SameSymmetry (nmo - v - c) (skipn c irreps) I0 I) ->
  forall I, fermi_act (MolModel.mol_sq e nmo c v h g) psi I <> C0 -> SameSymmetry (nmo - v - c) (skipn c irreps) I0 I.
Proof.
  intros e nmo c v h g irr HS I0 psi W. exact (SectorMol.zero_or_keeps _ _ false _ I0 (SectorMol.mol_symmetric irr e nmo c v h g HS) psi W).
Qed.
Print Assumptions C89_molecular_hamiltonian.
Example C89_integrals : SectorMol.SymmetricIntegrals [0; 1; 0]%N (fun p q => if N.eqb (nth p [0; 1; 0]%N 0%N) (nth q [0; 1; 0]%N 0%N) then 1%R else 0%R)
  (fun p q r s => if N.eqb (N.lxor (N.lxor (nth p [0; 1; 0]%N 0%N) (nth q [0; 1; 0]%N 0%N)) (N.lxor (nth r [0; 1; 0]%N 0%N) (nth s [0; 1; 0]%N 0%N))) 0 then (1 / 2)%R else 0%R).
Proof. split; [intros p q N; now rewrite (proj2 (N.eqb_neq _ _) N)|intros p q r s N; now rewrite (proj2 (N.eqb_neq _ _) N)]. Qed.
Print Assumptions C89_excitation_pools.
Print Assumptions C89_gsd_pool.
Print Assumptions C89_sa_pool.

(** Two spatial orbitals with irreps 0 and 1, both electrons in the first: the SD ansatz only
    reaches the two closed-shell determinants 3 = |1100> and 12 = |0011>. *)
Example C89_instance : exists sp pool, set_orb_spaces [1; 1; 0; 0]%Z [0; 1]%N = Ok sp /\ SaModel.fill_pool PropSQ.isort sp "SD" [] = Ok pool /\
  forall qe tops ts, length tops = length ts -> Forall (fun top => top < length pool) tops -> exists U, ansatz_circuit PropSQ.isort tsort "SD" true qe 1 pool tops (map RtoC ts) = Ok U /\
    forall I, I < 16 -> circ_act U (ket 3) I <> C0 -> I = 3 \/ I = 12.
Proof.
  destruct (C89_excitation_pools PropSQ.isort tsort PropSQ.isort_legal tsort_legal 2 [1; 1; 0; 0]%Z 3%N [0; 1]%N "SD" 2) as (sp & pool & E & EP & HK); [|split; [cbn; lia|]|now right|cbn; tauto|].
  - split; [reflexivity|]. split; [apply Forall_forall; intros o Io; cbn in Io; lia|]. split; [reflexivity|]. intros [|[|[|[|p]]]] L; try reflexivity; lia.
  - intros p Lp. apply nth_overflow. cbn. lia.
  - exists sp, pool. split; [exact E|]. split; [exact EP|]. intros qe tops ts L B. destruct (HK qe true 1 tops ts L B ltac:(discriminate)) as (U & EU & HU). exists U. split; [exact EU|].
    intros I Li HI. assert (S : SameSymmetry 2 [0; 1]%N 3 I). { apply (HU 3 (ket 3)); [|exact HI]. intros J HJ. unfold ket in HJ. destruct (Nat.eqb_spec J 3) as [EJ|N]; [rewrite EJ; repeat split|now elim HJ]. }
    destruct S as (S1 & S2 & S3). do 16 (destruct I as [|I]; [revert S1 S2 S3; vm_compute; intros; first [discriminate|now left|now right]|]). lia.
Qed.
