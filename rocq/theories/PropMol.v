(** C83: the electronic Hamiltonian that create_psi_mol assembles from the integrals.
    C84: it becomes a real Hermitian sum of Pauli strings.  C85: create_external_mol, references. *)
From Coq Require Import Reals String List Arith Bool Lia Lra Permutation.
From Verif Require Import CBase Result Bits Spec OpSpec SQSpec GateModel LibProofs SafeProofs OperatorModel OperatorProofs SQModel SQProofs FermiProofs RealOps FermiIndep FermiHerm PropOperator PropSQ MeasSpec PropMeasure PropGrad MolModel MolSpec MolProofs MolFrozen MolCore MolEnergy MolHF MolHerm MolDet MolExt MolSo MolRef.
From Verif Require QftProofs PauliProofs.
Import ListNotations.
Local Open Scope C_scope.

(** ---- C83 ---- *)
(** no frozen orbitals: the nuclear repulsion energy plus the electronic Hamiltonian *)
Theorem C83_full_hamiltonian : forall e nmo h g, RealOrbitals h g -> forall psi,
  fermi_act (mol_sq e nmo 0 0 h g) psi == sadd (sscale (RtoC e) psi) (electronic nmo h g psi).
Proof.
  intros e nmo h g RO psi. assert (S2 : forall p q r s, g p q r s = g p q s r) by apply RO. eapply seq_trans; [apply mol_sq_act, S2|]. rewrite !Nat.sub_0_r. intros I. unfold sadd, sscale. f_equal; [f_equal; unfold core_energy; cbn; apply C_ext; cbn; ring|].
  unfold electronic. f_equal.
  - apply Csum_ext. intros p _. apply Csum_ext. intros q _. rewrite !Nat.add_0_r. reflexivity.
  - apply Csum_ext. intros p _. apply Csum_ext. intros r _. apply Csum_ext. intros s _. apply Csum_ext. intros q _. rewrite !Nat.add_0_r. reflexivity.
Qed.
Print Assumptions C83_full_hamiltonian.
(** frozen orbitals: between states of the active orbitals the assembled operator has the matrix
    elements that the full Hamiltonian has between the same states with the core orbitals doubly
    occupied and the frozen virtual orbitals empty *)
Theorem C83_frozen_orbitals : forall e nmo c v h g, RealOrbitals h g -> (c + v <= nmo)%nat -> forall phi psi,
  let na := (2 * (nmo - v - c))%nat in
  inner na phi (fermi_act (mol_sq e nmo c v h g) psi) =
  inner (2 * nmo) (with_core c na phi) (sadd (sscale (RtoC e) (with_core c na psi)) (electronic nmo h g (with_core c na psi))).
Proof. intros e nmo c v h g RO L phi psi na. symmetry. now apply frozen_inner. Qed.
Print Assumptions C83_frozen_orbitals.
(** overlaps are the same too, so that these are the energies of the same problem *)
Theorem C83_frozen_overlaps : forall nmo c v, (c + v <= nmo)%nat -> forall phi psi,
  let na := (2 * (nmo - v - c))%nat in inner (2 * nmo) (with_core c na phi) (with_core c na psi) = inner na phi psi.
Proof. intros nmo c v L phi psi na. apply core_inner. unfold na. lia. Qed.
Print Assumptions C83_frozen_overlaps.
(** the determinant of the c core orbitals and the spin orbitals of D *)
Definition full_determinant (c D : nat) : nat := (D * 2 ^ (2 * c) + (2 ^ (2 * c) - 1))%nat.
Lemma full_bits c D k : bit (full_determinant c D) k = if (k <? 2 * c)%nat then true else bit D (k - 2 * c).
Proof.
  unfold full_determinant. set (m := (2 * c)%nat). assert (P := pow2_pos m). destruct (Nat.ltb_spec k m) as [L|G].
  - unfold bit. rewrite <- (Nat.mod_pow2_bits_low _ m k L). rewrite Nat.add_comm, Nat.mod_add, Nat.mod_small by lia. fold (bit (2 ^ m - 1) k). rewrite ones_bits. now apply Nat.ltb_lt.
  - replace k with (k - m + m)%nat at 1 by lia. rewrite <- bit_shift. f_equal. rewrite Nat.add_comm, Nat.div_add, Nat.div_small by lia. reflexivity.
Qed.
Lemma core_ket c na D : (D < 2 ^ na)%nat -> with_core c na (ket D) == ket (full_determinant c D).
Proof.
  intros L I. rewrite with_core_at. unfold ket. assert (LB := proj1 (lt_pow2_bits na D) L). destruct (Nat.eqb_spec I (full_determinant c D)) as [->|N].
  - assert (E : in_core c na (full_determinant c D) = true) by (apply in_core_bits; split; intros p Hp; rewrite full_bits; [destruct (Nat.ltb_spec p (2 * c)); [reflexivity|lia]|destruct (Nat.ltb_spec p (2 * c)); [lia|apply LB; lia]]). rewrite E.
    replace (full_determinant c D / 2 ^ (2 * c))%nat with D; [now rewrite Nat.eqb_refl|]. unfold full_determinant. assert (P := pow2_pos (2 * c)). rewrite Nat.add_comm, Nat.div_add, Nat.div_small by lia. reflexivity.
  - destruct (in_core c na I) eqn:E; [|reflexivity]. destruct (Nat.eqb_spec (I / 2 ^ (2 * c)) D) as [E2|]; [|reflexivity]. exfalso. apply N. apply in_core_bits in E. destruct E as [E _]. apply bits_ext. intros k. rewrite full_bits. destruct (Nat.ltb_spec k (2 * c)); [now apply E|]. rewrite <- E2, bit_shift. f_equal. lia.
Qed.
(** the energy of a determinant is the sum over its occupied spin orbitals, core included, of the
    original integrals *)
Definition occupied (D p : nat) : C := if bit D p then C1 else C0.
Definition determinant_energy (e : R) (nmo : nat) (h : nat -> nat -> R) (g : nat -> nat -> nat -> nat -> R) (D : nat) : C :=
  RtoC e + Csum (fun p => Csum (fun a => RtoC (h p p) * occupied D (so p a)) [0; 1]%nat) (seq 0 nmo) +
  Csum (fun p => Csum (fun r => Csum (fun a => Csum (fun b =>
    RtoC ((g p p r r - (if Nat.eqb a b then g p r r p else 0)) / 2) * (occupied D (so p a) * occupied D (so r b))) [0; 1]%nat) [0; 1]%nat) (seq 0 nmo)) (seq 0 nmo).
Theorem C83_determinant_energies : forall e nmo c v h g, RealOrbitals h g -> (c + v <= nmo)%nat -> forall D,
  let na := (2 * (nmo - v - c))%nat in (D < 2 ^ na)%nat ->
  inner na (ket D) (fermi_act (mol_sq e nmo c v h g) (ket D)) = determinant_energy e nmo h g (full_determinant c D).
Proof.
  intros e nmo c v h g RO L D na HD. rewrite (C83_frozen_orbitals e nmo c v h g RO L). fold na. set (X := with_core c na (ket D)). set (Y := ket (full_determinant c D)).
  assert (EX : X == Y) by (apply core_ket, HD).
  assert (EE : sadd (sscale (RtoC e) X) (electronic nmo h g X) == sadd (sscale (RtoC e) Y) (electronic nmo h g Y)).
  { intros I. unfold sadd, sscale. rewrite (EX I). f_equal. unfold electronic. f_equal.
    - do 3 (apply Csum_ext; intros ? _). f_equal. unfold hop. apply create_ext, annihilate_ext, EX.
    - do 6 (apply Csum_ext; intros ? _). f_equal. unfold scatter. apply create_ext, create_ext, annihilate_ext, annihilate_ext, EX. }
  rewrite (inner_ext _ _ _ _ _ EX EE). assert (LD : (full_determinant c D < 2 ^ (2 * nmo))%nat).
  { apply lt_pow2_bits. intros k Hk. rewrite full_bits. destruct (Nat.ltb_spec k (2 * c)); [lia|]. apply (proj1 (lt_pow2_bits na D) HD). unfold na. lia. }
  rewrite inner_add_r, inner_scale_r. unfold Y. rewrite (electronic_diag nmo h g (2 * nmo) _ LD), QftProofs.inner_ket by exact LD. unfold determinant_energy. change occupied with occ. unfold bits2, ket. rewrite Nat.eqb_refl. ring.
Qed.
Print Assumptions C83_determinant_energies.
(** d doubly occupied active orbitals: the closed-shell Hartree-Fock energy, whatever is frozen *)
Theorem C83_closed_shell_energy : forall e nmo c v d h g, RealOrbitals h g -> (c + d + v <= nmo)%nat ->
  let D := ket (2 ^ (2 * d) - 1) in
  inner (2 * (nmo - v - c)) D (fermi_act (mol_sq e nmo c v h g) D) =
  RtoC e + Csum (fun i => RtoC (2 * h i i)) (seq 0 (c + d)) + Csum (fun i => Csum (fun j => RtoC (2 * g i i j j - g i j j i)) (seq 0 (c + d))) (seq 0 (c + d)).
Proof. exact closed_shell. Qed.
Print Assumptions C83_closed_shell_energy.
Definition h_demo (p q : nat) : R := if Nat.eqb p q then (-1)%R else (1 / 8)%R.
Definition g_demo (p q r s : nat) : R := if (Nat.eqb p q && Nat.eqb r s)%bool then (1 / 2)%R else if ((Nat.eqb p r && Nat.eqb q s) || (Nat.eqb p s && Nat.eqb q r))%bool then (1 / 4)%R else 0%R.
Lemma demo_real : RealOrbitals h_demo g_demo.
Proof.
  unfold h_demo, g_demo. split; [intros p q; now rewrite Nat.eqb_sym|]. split; [|split]; intros p q r s; rewrite ?(Nat.eqb_sym q p), ?(Nat.eqb_sym s r), ?(Nat.eqb_sym r p), ?(Nat.eqb_sym s q), ?(Nat.eqb_sym s p), ?(Nat.eqb_sym r q).
  - destruct (Nat.eqb p q), (Nat.eqb r s), (Nat.eqb p r), (Nat.eqb q s), (Nat.eqb p s), (Nat.eqb q r); reflexivity.
  - destruct (Nat.eqb p q), (Nat.eqb r s), (Nat.eqb p r), (Nat.eqb q s), (Nat.eqb p s), (Nat.eqb q r); reflexivity.
  - destruct (Nat.eqb p q), (Nat.eqb r s), (Nat.eqb p r), (Nat.eqb q s), (Nat.eqb p s), (Nat.eqb q r); reflexivity.
Qed.
(** four orbitals, one core, one frozen virtual, one doubly occupied active orbital *)
Example C83_nonvacuous : RealOrbitals h_demo g_demo /\ (1 + 1 + 1 <= 4)%nat /\
  inner 4 (ket 3) (fermi_act (mol_sq 1 4 1 1 h_demo g_demo) (ket 3)) = RtoC (- 1 / 2).
Proof.
  split; [exact demo_real|]. split; [lia|]. pose proof (C83_closed_shell_energy 1 4 1 1 1 h_demo g_demo demo_real ltac:(lia)) as E. cbv zeta in E. change (2 * (4 - 1 - 1))%nat with 4%nat in E. change (2 ^ (2 * 1) - 1)%nat with 3%nat in E. rewrite E.
  cbn [Nat.add seq]. rewrite !Csum_cons, !Csum_nil. unfold h_demo, g_demo. cbn [Nat.eqb andb orb]. apply C_ext; cbn; field.
Qed.

(** ---- C84 ---- *)
(** a normal ordered operator is determined by its action: the same products have the same
    coefficients *)
Theorem C84_normal_form_unique : forall a b,
  (forall t, In t (a ++ b) -> (descending (fcre t) /\ descending (fann t)) /\ NoDup (fcre t) /\ NoDup (fann t)) -> NoDup (map fkey a) -> NoDup (map fkey b) ->
  (forall psi, fermi_act a psi == fermi_act b psi) ->
  forall t, In t a -> fcoef t <> C0 -> In t b.
Proof.
  intros a b HP NA NB E t Ht Hz. assert (PA : Forall plain a) by (apply Forall_forall; intros x Hx; apply HP, in_or_app; now left). assert (PB : Forall plain b) by (apply Forall_forall; intros x Hx; apply HP, in_or_app; now right).
  pose proof (act_coefs a b PA PB E (fkey t)) as X. rewrite (coefs_in a t NA Ht) in X. destruct (in_dec key_dec (fkey t) (map fkey b)) as [Hi|Hi]; [|rewrite (coefs_zero b _ Hi) in X; contradiction].
  apply in_map_iff in Hi. destruct Hi as (t' & Ek & Ht'). rewrite <- Ek, (coefs_in b t' NB Ht') in X. destruct t as [[x c1] a1], t' as [[x' c2] a2]. unfold fkey, fcoef, fcre, fann in *. cbn [fst snd] in *. injection Ek as -> ->. subst x'. exact Ht'.
Qed.
Print Assumptions C84_normal_form_unique.
(** the Pauli form of a real Hermitian particle-conserving operator: real coefficients, an even
    number of Y in every string, on the register, and the same operator up to dropped terms *)
Theorem C84_jordan_wigner_real_hermitian : forall srt, legal_sort srt -> forall o n,
  Forall PlainTerm o -> Forall (fun t => length (fcre t) = length (fann t)) o -> Forall (fun t => Forall (fun p => p < n)%nat (fcre t) /\ Forall (fun p => p < n)%nat (fann t)) o ->
  (forall psi, fermi_act o (fun I => Cconj (psi I)) == fun I => Cconj (fermi_act o psi I)) ->
  (forall m a b, (n <= m)%nat -> inner m a (fermi_act o b) = inner m (fermi_act o a) b) ->
  exists kept q fdropped dropped, jw_transform srt false o = Ok (kept, q) /\ fnegligible fdropped /\ negligible dropped /\
    Hamiltonian n q /\ Terms Canonical q /\ NoDup (map snd q) /\ Forall (fun t => Nat.even (count_Y (snd t)) = true) q /\
    forall psi, fermi_act o psi == sadd (op_act q psi) (sadd (op_act dropped psi) (fermi_act fdropped psi)).
Proof.
  intros srt HS o n HO HC HW HR HH. destruct (jw_real_hermitian srt o n HS HO HC HW HR HH) as (kept & fd & q & d & E & HF & HD & HCq & HN & HI & HIm & HY & HA). exists kept, q, fd, d. split; [exact E|]. split; [exact HF|]. split; [exact HD|]. split; [|split; [apply terms_canonical, HCq|split; [exact HN|split; [exact HY|exact HA]]]].
  unfold Hamiltonian. rewrite Forall_forall in *. intros t Ht. split; [|now apply HIm]. split; [|exact (proj1 (Forall_forall _ _) HI t Ht)]. pose proof (proj1 (Forall_forall _ _) HCq t Ht) as K. destruct (proj2 (canonical_iff (snd t)) K) as [A _]. split; [exact A|]. apply PauliProofs.increasing_nodup, K.
Qed.
Print Assumptions C84_jordan_wigner_real_hermitian.
Theorem C84_molecular_hamiltonian : forall srt, legal_sort srt -> forall e nmo c v h g, RealOrbitals h g ->
  let na := (2 * (nmo - v - c))%nat in let o := mol_sq e nmo c v h g in
  exists kept q fdropped dropped, jw_transform srt false o = Ok (kept, q) /\ fnegligible fdropped /\ negligible dropped /\
    Hamiltonian na q /\ Terms Canonical q /\ NoDup (map snd q) /\ Forall (fun t => Nat.even (count_Y (snd t)) = true) q /\
    forall psi, fermi_act o psi == sadd (op_act q psi) (sadd (op_act dropped psi) (fermi_act fdropped psi)).
Proof.
  intros srt HS e nmo c v h g RO na o. pose proof (mol_terms e nmo c v h g) as MT. cbv zeta in MT. fold o in MT. fold na in MT. apply C84_jordan_wigner_real_hermitian; [exact HS| | | | |].
  - eapply Forall_impl; [|exact MT]. cbn beta. intros t Ht. apply Ht.
  - eapply Forall_impl; [|exact MT]. cbn beta. intros t Ht. apply Ht.
  - eapply Forall_impl; [|exact MT]. cbn beta. intros t Ht. apply Ht.
  - apply (real_terms o). eapply Forall_impl; [|exact MT]. cbn beta. intros t Ht. apply Ht.
  - apply (mol_hermitian e nmo c v h g RO).
Qed.
Print Assumptions C84_molecular_hamiltonian.
Example C84_nonvacuous : legal_sort isort /\ RealOrbitals h_demo g_demo /\ length (mol_sq 1 4 1 1 h_demo g_demo) = 49%nat.
Proof. split; [exact isort_legal|]. split; [exact demo_real|]. reflexivity. Qed.

(** ---- C85 ---- *)
(** the operator of a file: scalar, one-electron and antisymmetrised two-electron integrals *)
Theorem C85_external_hamiltonian : forall e oei tei psi, fermi_act (external_sq e oei tei) psi == fun I =>
  RtoC e * psi I + Csum (fun t => let '(p, q, x) := t in RtoC x * create p (annihilate q psi) I) oei
  + Csum (fun t => let '(p, q, r, s, x) := t in RtoC (x / 4) * create p (create q (annihilate s (annihilate r psi))) I) tei.
Proof. exact external_act. Qed.
Print Assumptions C85_external_hamiltonian.
(** a file with all antisymmetrised spin orbital integrals of a molecule gives the operator that
    create_psi_mol builds from the spatial integrals *)
Theorem C85_external_same_as_molecule : forall e nmo h g, RealOrbitals h g -> forall psi,
  fermi_act (external_sq e (oei_table nmo h) (tei_table nmo g)) psi == fermi_act (mol_sq e nmo 0 0 h g) psi.
Proof. intros e nmo h g RO psi. eapply seq_trans; [apply spin_tables|apply seq_sym, C83_full_hamiltonian, RO]. Qed.
Print Assumptions C85_external_same_as_molecule.
(** symmetric tables without repeated indices give a real Hermitian Pauli operator *)
Theorem C85_external_pauli : forall srt, legal_sort srt -> forall e oei tei n,
  Permutation (map (fun t => let '(p, q, x) := t in (q, p, x)) oei) oei -> Permutation (map (fun t => let '(p, q, r, s, x) := t in (r, s, p, q, x)) tei) tei ->
  Forall (fun t => let '(p, q, _) := t in (p < n /\ q < n)%nat) oei -> Forall (fun t => let '(p, q, r, s, _) := t in (p < n /\ q < n /\ r < n /\ s < n)%nat /\ p <> q /\ r <> s) tei ->
  exists kept q fdropped dropped, jw_transform srt false (external_sq e oei tei) = Ok (kept, q) /\ fnegligible fdropped /\ negligible dropped /\
    Hamiltonian n q /\ Terms Canonical q /\ NoDup (map snd q) /\ Forall (fun t => Nat.even (count_Y (snd t)) = true) q /\
    forall psi, fermi_act (external_sq e oei tei) psi == sadd (op_act q psi) (sadd (op_act dropped psi) (fermi_act fdropped psi)).
Proof.
  intros srt HS e oei tei n P1 P2 W1 W2.
  assert (W2' : Forall (fun t => let '(p, q, r, s, _) := t in (p < n /\ q < n /\ r < n /\ s < n)%nat) tei) by (eapply Forall_impl; [|exact W2]; intros [[[[p q] r] s] x]; tauto).
  assert (ND2 : forall p q : nat, p <> q -> NoDup [p; q]) by (intros p q N; repeat constructor; cbn; intuition).
  assert (MT : Forall (fun t => PlainTerm t /\ conserving t /\ within n t /\ Im (fcoef t) = 0%R) (external_sq e oei tei)).
  { rewrite external_eq. constructor; [|apply Forall_app; split].
    - split; [repeat split; unfold fcre, fann; cbn; try constructor; lia|]. split; [reflexivity|]. split; [split; constructor|reflexivity].
    - unfold oei_terms. rewrite Forall_map. eapply Forall_impl; [|exact W1]. intros [[p q] x] [Hp Hq]. split; [repeat split; unfold fcre, fann; cbn [fst snd length]; [repeat constructor; cbn; tauto|repeat constructor; cbn; tauto|lia]|]. split; [reflexivity|]. split; [split; repeat constructor; assumption|reflexivity].
    - unfold tei_terms. rewrite Forall_map. eapply Forall_impl; [|exact W2]. intros [[[[p q] r] s] x] [(Hp & Hq & Hr & Hs) [N1 N2]]. split; [repeat split; unfold fcre, fann; cbn [fst snd length]; [now apply ND2|apply ND2; congruence|lia]|]. split; [reflexivity|]. split; [split; repeat constructor; assumption|reflexivity]. }
  apply C84_jordan_wigner_real_hermitian; [exact HS| | | | |].
  - eapply Forall_impl; [|exact MT]. cbn beta. intros t Ht. apply Ht.
  - eapply Forall_impl; [|exact MT]. cbn beta. intros t Ht. apply Ht.
  - eapply Forall_impl; [|exact MT]. cbn beta. intros t Ht. apply Ht.
  - apply (real_terms (external_sq e oei tei)). eapply Forall_impl; [|exact MT]. cbn beta. intros t Ht. apply Ht.
  - apply (external_hermitian e oei tei n P1 P2 W1 W2').
Qed.
Print Assumptions C85_external_pauli.
(** the reference of a file: na alpha electrons in the even and nb beta electrons in the odd spin
    orbitals from the bottom; IndexError exactly when they do not fit *)
Theorem C85_external_reference : forall nso na nb,
  ((2 * na <= nso + 1 /\ 2 * nb <= nso)%nat -> exists ref, external_ref nso na nb = Ok ref /\ length ref = nso /\
     forall p, nth p ref 0%nat = if (p / 2 <? (if Nat.even p then na else nb))%nat then 1%nat else 0%nat) /\
  (~ (2 * na <= nso + 1 /\ 2 * nb <= nso)%nat -> external_ref nso na nb = Throw (PyError "IndexError")).
Proof. intros nso na nb. split; [intros [A B]; now apply external_ref_spec|]. intros H. apply external_ref_throw. lia. Qed.
Print Assumptions C85_external_reference.
(** the reference of a psi4 molecule: orbital number k of the active orbitals (sorted by energy)
    with irrep i takes the occupations number (frozen core orbitals of i + active orbitals of i
    below k) of the irrep's lists *)
Theorem C85_hf_reference : forall occ_a occ_b frz orbitals,
  (forall i, In i (map snd orbitals) -> exists f ra rb, nth_error frz i = Some f /\ nth_error occ_a i = Some ra /\ nth_error occ_b i = Some rb /\
     (f + length (filter (Nat.eqb i) (map snd orbitals)) <= length ra)%nat /\ (f + length (filter (Nat.eqb i) (map snd orbitals)) <= length rb)%nat) ->
  exists ref, hf_lists occ_a occ_b frz orbitals = Ok (ref, map fst orbitals, map snd orbitals) /\ length ref = (2 * length orbitals)%nat /\
    forall k, (k < length orbitals)%nat -> let i := nth k (map snd orbitals) 0%nat in let pos := (nth i frz 0 + length (filter (Nat.eqb i) (firstn k (map snd orbitals))))%nat in
      nth (2 * k) ref 0%nat = nth pos (nth i occ_a []) 0%nat /\ nth (2 * k + 1) ref 0%nat = nth pos (nth i occ_b []) 0%nat.
Proof.
  intros occ_a occ_b frz orbitals H.
  assert (SE : forall i (l : list (R * nat)), seen i l = length (filter (Nat.eqb i) (map snd l))). { intros i l. unfold seen. induction l as [|[x j] l IH]; [reflexivity|]. cbn [filter map snd]. rewrite (Nat.eqb_sym j i). destruct (Nat.eqb i j); cbn [length]; now rewrite IH. }
  destruct (hf_loop occ_a occ_b frz orbitals [] frz [] [] []) as (cnt & E).
  - intros i. destruct (nth_error frz i); [|reflexivity]. f_equal. unfold seen. cbn. lia.
  - intros i Hi. destruct (H i) as (f & ra & rb & A); [|exists f, ra, rb; cbn [app]; rewrite SE; exact A]. rewrite SE in Hi. destruct (filter (Nat.eqb i) (map snd orbitals)) as [|x l] eqn:EF; [now destruct Hi|]. assert (Hx : In x (filter (Nat.eqb i) (map snd orbitals))) by (rewrite EF; now left). apply filter_In in Hx. destruct Hx as [Hx Ex]. apply Nat.eqb_eq in Ex. now subst x.
  - eexists. split; [exact (f_equal (fun x => bind x (fun st => Ok (snd st))) E)|]. cbn [app].
    match goal with |- length (flat_map ?f _) = _ /\ _ => set (F := f) end. assert (LF : forall m s, length (flat_map F (seq s m)) = (2 * m)%nat) by (induction m as [|m IH]; intros s; [reflexivity|]; cbn [seq flat_map]; rewrite app_length, IH; cbn [F length]; lia).
    split; [apply LF|]. intros k Hk. set (i := nth k (map snd orbitals) 0%nat). set (pos := (nth i frz 0 + length (filter (Nat.eqb i) (firstn k (map snd orbitals))))%nat).
    assert (NF : forall j, (j < 2)%nat -> nth (2 * k + j) (flat_map F (seq 0 (length orbitals))) 0%nat = nth j (F k) 0%nat).
    { intros j Hj. replace (length orbitals) with (k + (1 + (length orbitals - k - 1)))%nat by lia. rewrite seq_app, flat_map_app, app_nth2; rewrite LF; [|lia]. cbn [Nat.add seq flat_map]. rewrite app_nth1; [f_equal; lia|]. cbn [F length]. lia. }
    assert (FK : F k = [nth pos (nth i occ_a []) 0%nat; nth pos (nth i occ_b []) 0%nat]) by (unfold F, pos, i; rewrite SE; cbn [app]; rewrite firstn_map; reflexivity).
    pose proof (NF 0%nat ltac:(lia)) as N0. pose proof (NF 1%nat ltac:(lia)) as N1. rewrite FK in N0, N1. rewrite Nat.add_0_r in N0. split; [exact N0|exact N1].
Qed.
Print Assumptions C85_hf_reference.
Example C85_nonvacuous : external_ref 6 2 1 = Ok [1; 1; 1; 0; 0; 0]%nat /\ external_ref 2 2 0 = Throw (PyError "IndexError") /\
  hf_lists [[1; 1; 0]; [1; 0]]%nat [[1; 1; 0]; [0; 0]]%nat [1; 0]%nat [((-2)%R, 0%nat); ((-1)%R, 1%nat); (0%R, 0%nat); (1%R, 1%nat)] = Ok ([1; 1; 1; 0; 0; 0; 0; 0]%nat, [-2; -1; 0; 1]%R, [0; 1; 0; 1]%nat) /\
  Permutation (map (fun t => let '(p, q, x) := t in (q, p, x)) [(0, 1, 3%R); (1, 0, 3%R)]%nat) [(0, 1, 3%R); (1, 0, 3%R)]%nat.
Proof. split; [reflexivity|]. split; [reflexivity|]. split; [reflexivity|]. apply perm_swap. Qed.
