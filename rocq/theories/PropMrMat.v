(** C82: the multireference Krylov problem of MRSQK. *)
From Coq Require Import Reals String List Arith NArith Bool Lia Lra.
From Verif Require Import CBase Result Bits Spec OpSpec GateModel ComputerModel SafeProofs LibProofs CleanProofs SimProofs CircuitModel PauliProofs OperatorModel MeasureModel MeasureProofs PyModel PyApply ExpSpec ExpProofs ExpCircuit FermiProofs EigModel EigProofs GradModel GradSpec GradProofs QkModel QkProofs QkEig MrModel MrProofs PropOperator PropMeasure PropEig PropGrad PropQk.
From Verif Require TrotterProofs PropPy PropAnsatz QftProofs StateProofs PropRes.
Import ListNotations.
Local Open Scope nat_scope.

(** ---- vocabulary ---- *)
(** a reference is a real combination of determinants (occupation lists); a determinant is the
    combination with coefficient 1.  MrProofs.det_number: the basis state with these
    occupations; ref_wave: the sum of coefficient times basis state; DetOn n d: n zeros and ones *)
Definition references (refs : mr_refs) : list (list (R * list nat)) := match refs with Dets l => map (fun d => [(1%R, d)]) l | Adapted l => l end.
Definition wave (refs : mr_refs) (i : nat) : state := ref_wave (nth i (references refs) []).
(** references that can be used: determinants with at least one electron, or combinations of
    different determinants *)
Definition UsableRefs (n : nat) (refs : mr_refs) : Prop :=
  match refs with
  | Dets l => Forall (fun d => DetOn n d /\ In 1 d) l
  | Adapted l => 1 <= n /\ Forall (fun ref => Forall (fun t => DetOn n (snd t)) ref /\ NoDup (map snd ref)) l
  end.
Definition MrSetup (o : mr_options) : Prop := Hamiltonian (mr_nqb o) (mr_ham o) /\ 1 <= mr_trotter o.
(** psi is the Trotter product formula for exp(-i m dt H) acting on phi *)
Definition EvolvedTo (o : mr_options) (m : nat) (phi psi : state) : Prop :=
  exp_product (PropPy.trotter_factors (mkC 0 (- (INR m * mr_dt o))) (mr_trotter o) (mr_ham o)) phi psi.
(** position of state m of reference i *)
Definition position (o : mr_options) (i m : nat) : nat := i * (mr_s o + 1) + m.

Lemma states_made o refs : MrSetup o -> UsableRefs (mr_nqb o) refs -> exists qs l, mr_states o refs = Ok l /\ stored o (mr_nqb o) qs l /\
  Forall2 (fun rm q => good_state o (mr_nqb o) (fst rm) (snd rm) q) (all_pairs o (references refs)) qs.
Proof.
  intros (HH & Hr) HU. destruct refs as [L|L]; cbn [mr_states references].
  - destruct (det_states_spec o _ eq_refl HH Hr L HU) as (qs & l & E & S & F). exists qs, l. split; [exact E|]. split; [exact S|].
    assert (EP : all_pairs o (map (fun d => [(1%R, d)]) L) = map (fun dm => ([(1%R, fst dm)], snd dm)) (all_pairs o L)).
    { unfold all_pairs. clear. induction L as [|d L IH]; [reflexivity|]. cbn [map flat_map]. rewrite map_app, IH, map_map. reflexivity. }
    rewrite EP. clear - F. induction F as [|dm q ps qs H _ IH]; constructor; [exact H|exact IH].
  - destruct HU as (Hn & HU). exact (sa_states_spec o _ eq_refl HH Hr L Hn HU).
Qed.
Lemma forall2_nth {A B} (P : A -> B -> Prop) l m i x d : Forall2 P l m -> nth_error l i = Some x -> P x (nth i m d).
Proof. intros H. revert i. induction H as [|a b l m Hab _ IH]; intros [|i] E; try discriminate; [injection E as <-; exact Hab|now apply IH]. Qed.
Lemma count_refs refs : length (references refs) = ref_count refs.
Proof. destruct refs; cbn; [apply map_length|reflexivity]. Qed.
(** the states in the order in which they are stored *)
Lemma states_at o refs : MrSetup o -> UsableRefs (mr_nqb o) refs -> exists qs l, mr_states o refs = Ok l /\ stored o (mr_nqb o) qs l /\ length qs = ref_count refs * (mr_s o + 1) /\ Forall (fun q => wf_computer q /\ nqubit q = mr_nqb o) qs /\
  forall i m, i < ref_count refs -> m <= mr_s o -> good_state o (mr_nqb o) (nth i (references refs) []) m (nth (position o i m) qs (new_computer (mr_nqb o))).
Proof.
  intros HS HU. destruct (states_made o refs HS HU) as (qs & l & E & S & F). exists qs, l. split; [exact E|]. split; [exact S|]. split; [|split].
  - rewrite <- (PropRes.forall2_len _ _ _ F), pairs_length, count_refs. reflexivity.
  - clear - F. induction F as [|rm q ps qs (H1 & H2 & _) _ IH]; constructor; auto.
  - intros i m Hi Hm. assert (EN : nth_error (references refs) i = Some (nth i (references refs) [])) by (apply nth_error_nth'; rewrite count_refs; exact Hi). exact (forall2_nth _ _ _ _ _ (new_computer (mr_nqb o)) F (pairs_nth o _ i m _ EN Hm)).
Qed.
Theorem C82_states : forall o refs i m, MrSetup o -> UsableRefs (mr_nqb o) refs -> i < ref_count refs -> m <= mr_s o ->
  exists psi, EvolvedTo o m (wave refs i) psi /\ inner (mr_nqb o) psi psi = inner (mr_nqb o) (wave refs i) (wave refs i).
Proof. intros o refs i m HS HU Hi Hm. destruct (states_at o refs HS HU) as (qs & l & _ & _ & _ & _ & G). destruct (G i m Hi Hm) as (_ & _ & A & B). eexists. split; [exact A|exact B]. Qed.
Lemma common_parts eig o refs r : mr_common_run eig o refs = Ok r -> exists l hs e e0 root er, mr_states o refs = Ok l /\ fill_mats eig o (ref_count refs * (mr_s o + 1)) l = Ok hs /\ r_S r = snd hs /\ r_H r = fst hs /\
  canonical_geig_solve eig (ref_count refs * (mr_s o + 1)) (r_S r) (r_H r) true = Ok (r_eigenvalues r, e) /\ py_get (r_eigenvalues r) 0 = Ok e0 /\ r_Egs r = Re e0 /\ mr_root o = Some root /\ py_get (r_eigenvalues r) root = Ok er /\ r_Ets r = Re er.
Proof.
  intros E. unfold mr_common_run in E. cbv zeta in E. destruct (mr_states o refs) as [l|]; cbn [bind] in E; [|discriminate]. destruct (fill_mats eig o _ l) as [hs|] eqn:EF; cbn [bind] in E; [|discriminate].
  destruct (canonical_geig_solve eig _ (snd hs) (fst hs) true) as [[es D]|] eqn:EG; cbn [bind fst snd] in E; [|discriminate]. destruct (py_get es 0) as [e0|] eqn:E0; cbn [bind] in E; [|discriminate].
  destruct (mr_root o) as [root|] eqn:ER; [|discriminate]. destruct (py_get es root) as [er|] eqn:E1; cbn [bind] in E; [|discriminate]. injection E as <-. cbn [r_S r_H r_eigenvalues r_Egs r_Ets]. exists l, hs, D, e0, root, er. repeat split; auto.
Qed.
Lemma position_lt o refs i m : i < ref_count refs -> m <= mr_s o -> position o i m < ref_count refs * (mr_s o + 1).
Proof. intros Hi Hm. unfold position. assert (S i * (mr_s o + 1) <= ref_count refs * (mr_s o + 1)) by (apply Nat.mul_le_mono_r; lia). lia. Qed.
(** the matrices of a run are the overlaps and the Hamiltonian matrix elements of the evolved
    references *)
Theorem C82_matrices : forall eig o refs r Psi, MrSetup o -> UsableRefs (mr_nqb o) refs -> mr_common_run eig o refs = Ok r ->
  (forall i m, i < ref_count refs -> m <= mr_s o -> EvolvedTo o m (wave refs i) (Psi i m)) ->
  forall i m j l, i < ref_count refs -> m <= mr_s o -> j < ref_count refs -> l <= mr_s o ->
  r_S r (position o i m) (position o j l) = inner (mr_nqb o) (Psi i m) (Psi j l) /\
  r_H r (position o i m) (position o j l) = inner (mr_nqb o) (Psi i m) (op_act (mr_ham o) (Psi j l)) /\
  r_S r (position o i m) (position o i m) = inner (mr_nqb o) (wave refs i) (wave refs i).
Proof.
  intros eig o refs r Psi HS HU E HK i m j l Hi Hm Hj Hl. destruct (states_at o refs HS HU) as (qs & L & E1 & S & LQ & HQ & G). destruct (common_parts _ _ _ _ E) as (L' & hs & _ & _ & _ & _ & E1' & EF & -> & -> & _).
  rewrite E1 in E1'. injection E1' as <-. destruct HS as (HH & Hr). pose proof (fill_inv o _ eq_refl HH Hr eig qs L S HQ _ hs (Nat.eq_le_incl _ _ (eq_sym LQ)) EF) as HM.
  assert (EU : forall i m, i < ref_count refs -> m <= mr_s o -> psi_of (nth (position o i m) qs (new_computer (mr_nqb o))) == Psi i m). { intros a b Ha Hb. destruct (G a b Ha Hb) as (_ & _ & K & _). exact (PropAnsatz.exp_product_unique _ _ _ _ K (HK a b Ha Hb)). }
  pose proof (position_lt o refs i m Hi Hm) as P1. pose proof (position_lt o refs j l Hj Hl) as P2. destruct (HM _ _ P1 P2) as (A1 & A2); [lia|]. destruct (HM _ _ P1 P1) as (_ & A3); [lia|]. rewrite A1, A2, A3.
  split; [apply inner_ext; apply EU; assumption|]. split; [apply inner_ext; [apply EU; assumption|apply op_act_ext', EU; assumption]|]. apply (G i m Hi Hm).
Qed.
Print Assumptions C82_matrices.
(** the state at position p *)
Definition at_position (o : mr_options) (Psi : nat -> nat -> state) (p : nat) : state := Psi (p / (mr_s o + 1)) (p mod (mr_s o + 1)).
Lemma split_position o refs p : p < ref_count refs * (mr_s o + 1) -> p / (mr_s o + 1) < ref_count refs /\ p mod (mr_s o + 1) <= mr_s o /\ position o (p / (mr_s o + 1)) (p mod (mr_s o + 1)) = p.
Proof.
  intros H. assert (N0 : mr_s o + 1 <> 0) by lia. split; [apply Nat.div_lt_upper_bound; lia|]. split; [pose proof (Nat.mod_upper_bound p _ N0); lia|]. unfold position. pose proof (Nat.div_mod p (mr_s o + 1) N0). lia.
Qed.
Theorem C82_completes_partial : forall eig o refs Psi k root, MrSetup o -> UsableRefs (mr_nqb o) refs -> mr_each o = false -> mr_root o = Some root -> root < k -> let N := ref_count refs * (mr_s o + 1) in
  (forall i m, i < ref_count refs -> m <= mr_s o -> EvolvedTo o m (wave refs i) (Psi i m)) ->
  (forall S, (forall a b, a < N -> b < N -> S a b = inner (mr_nqb o) (at_position o Psi a) (at_position o Psi b)) -> GoodOverlap eig N S /\ KeptFirst eig N S k) -> EigCorrect eig k ->
  exists r, mr_common_run eig o refs = Ok r.
Proof.
  intros eig o refs Psi k root HS HU HE HR Hk N HK HG EC. destruct (states_at o refs HS HU) as (qs & L & E1 & S & LQ & HQ & G). fold N in LQ. destruct (HS) as (HH & Hr).
  destruct (fill_total o _ eq_refl HH Hr eig qs L S HQ N (Nat.eq_le_incl _ _ (eq_sym LQ)) HE) as (hs & EF & HM).
  destruct (HG (snd hs)) as (G1 & G2).
  { intros a b Ha Hb. destruct (HM a b Ha Hb) as (_ & ->); [lia|]. destruct (split_position o refs a Ha) as (A1 & A2 & A3), (split_position o refs b Hb) as (B1 & B2 & B3). rewrite <- A3, <- B3 at 1. unfold at_position. apply inner_ext; (eapply PropAnsatz.exp_product_unique; [apply G; assumption|apply HK; assumption]). }
  unfold mr_common_run. cbv zeta. fold N. rewrite E1. cbn [bind]. rewrite EF. cbn [bind]. destruct (C48_kept_subspace_partial eig N (snd hs) (fst hs) k G1 G2 EC) as (e & D & E2 & LE & _). destruct (C48_sorted_energies _ _ _ _ _ _ E2) as (e' & D' & E3 & HP & _).
  rewrite E3. cbn [bind fst snd]. pose proof (Permutation.Permutation_length HP) as LL. rewrite HR. unfold py_get. rewrite (nth_error_nth' e' C0) by lia. cbn [bind]. rewrite (nth_error_nth' e' C0) by lia. cbn [bind]. eexists. reflexivity.
Qed.
Print Assumptions C82_completes_partial.
(** the energies are variational *)
Theorem C82_variational_partial : forall eig o refs r k Psi, MrSetup o -> UsableRefs (mr_nqb o) refs -> mr_common_run eig o refs = Ok r -> let N := ref_count refs * (mr_s o + 1) in
  (forall i m, i < ref_count refs -> m <= mr_s o -> EvolvedTo o m (wave refs i) (Psi i m)) ->
  GoodOverlap eig N (r_S r) -> KeptFirst eig N (r_S r) k -> EigCorrect eig k -> NonzeroVectors eig k ->
  length (r_eigenvalues r) = k /\
  (forall e, In e (r_eigenvalues r) -> exists c, let Phi := combination N c (at_position o Psi) in
     (0 < Re (inner (mr_nqb o) Phi Phi))%R /\ inner (mr_nqb o) Phi (op_act (mr_ham o) Phi) = (e * inner (mr_nqb o) Phi Phi)%C) /\
  (forall e, In e (r_eigenvalues r) -> (r_Egs r <= Re e)%R) /\
  forall L, (forall phi, L * Re (inner (mr_nqb o) phi phi) <= Re (inner (mr_nqb o) phi (op_act (mr_ham o) phi)))%R -> (L <= r_Egs r <= r_Ets r)%R.
Proof.
  intros eig o refs r k Psi0 HS HU E N HK GO KF EC NZ. set (n := mr_nqb o) in *. set (Psi := at_position o Psi0).
  assert (HM : forall a b, a < N -> b < N -> r_S r a b = inner n (Psi a) (Psi b) /\ r_H r a b = inner n (Psi a) (op_act (mr_ham o) (Psi b))).
  { intros a b Ha Hb. destruct (split_position o refs a Ha) as (A1 & A2 & A3), (split_position o refs b Hb) as (B1 & B2 & B3). destruct (C82_matrices eig o refs r Psi0 HS HU E HK _ _ _ _ A1 A2 B1 B2) as (H1 & H2 & _). rewrite A3, B3 in H1, H2. auto. }
  destruct (common_parts _ _ _ _ E) as (l & hs & D & e0 & root & er & _ & _ & _ & _ & EG & E0 & EE0 & _ & Er & EEr). fold N in EG. rewrite EE0, EEr. set (es := r_eigenvalues r) in *.
  destruct (rayleigh eig _ _ _ k es D GO KF EC NZ EG) as (LE & HR).
  assert (HQ : forall e, In e es -> exists c, let Phi := combination N c Psi in (0 < Re (inner n Phi Phi))%R /\ inner n Phi (op_act (mr_ham o) Phi) = (e * inner n Phi Phi)%C).
  { intros e He. destruct (HR e He) as (c & x & H1 & H2 & H3). exists c. cbv zeta. rewrite (quad_S n _ c Psi (r_S r)) by (intros a b Ha Hb; apply HM; lia).
    rewrite (quad_H n _ c Psi (op_act (mr_ham o)) (r_H r)) by (try (apply C63_hamiltonian_self_adjoint, HS); intros a b Ha Hb; apply HM; lia). rewrite H1, H3. split; [exact H2|reflexivity]. }
  assert (H0 : forall e, In e es -> (Re e0 <= Re e)%R).
  { destruct GO as (G1 & G2 & G3). destruct KF as (K1 & K2). pose proof (solve_eq eig N (r_S r) (r_H r) G2 G3 G1 k K1 K2 false) as EF. destruct (C48_sorted_energies _ _ _ _ _ _ EF) as (e' & D' & E2 & _ & HSort). rewrite EG in E2. injection E2 as <- <-.
    intros e He. clearbody es. destruct es as [|x es']; [destruct He|]. injection E0 as ->. destruct He as [->|He]; [lra|]. inversion HSort as [|? ? _ HF]; subst. rewrite Forall_forall in HF. now apply HF. }
  assert (I0 : In e0 es) by (unfold py_get in E0; destruct (nth_error es 0) as [x|] eqn:EN; [injection E0 as ->; now apply nth_error_In in EN|discriminate]).
  assert (Ir : In er es). { unfold py_get in Er. destruct (nth_error es root) as [x|] eqn:EN; [|discriminate]. injection Er as ->. now apply nth_error_In in EN. }
  split; [exact LE|]. split; [exact HQ|]. split; [exact H0|]. intros L HL. split; [|apply H0, Ir]. destruct (HQ e0 I0) as (c & P1 & P2). cbv zeta in P1, P2. specialize (HL (combination N c Psi)). rewrite P2 in HL.
  assert (IR : Im (inner n (combination N c Psi) (combination N c Psi)) = 0%R). { pose proof (f_equal Im (inner_conj n (combination N c Psi) (combination N c Psi))) as H. cbn in H. lra. }
  cbn [Cmul Re] in HL. rewrite IR in HL. apply Rmult_le_reg_r with (Re (inner n (combination N c Psi) (combination N c Psi))); [exact P1|]. lra.
Qed.
Print Assumptions C82_variational_partial.
(** refuted: an excited target root with the default diagonalize_each_step=True *)
Theorem C82_excited_root_refuted : forall eig o refs root, (forall k A, length (fst (eig k A)) = k) -> mr_each o = true -> mr_root o = Some root -> 1 <= root -> 1 <= ref_count refs -> forall r, mr_common_run eig o refs <> Ok r.
Proof.
  intros eig o refs root HL HE HR Hr HC r E. destruct (common_parts _ _ _ _ E) as (l & hs & D & e0 & root' & er & _ & EF & _). unfold fill_mats in EF.
  assert (HN : exists N, ref_count refs * (mr_s o + 1) = S N) by (exists (ref_count refs * (mr_s o + 1) - 1); assert (1 * 1 <= ref_count refs * (mr_s o + 1)) by (apply Nat.mul_le_mono; lia); lia). destruct HN as (N & EN). rewrite EN in EF. cbn [seq foreach] in EF.
  destruct (foreach _ _ (mzero, mzero)) as [h1|] in EF; cbn [bind] in EF; [|discriminate]. rewrite HE, HR in EF. destruct (canonical_geig_solve eig (0 + 1) (snd h1) (fst h1) true) as [[es D']|] eqn:EG; cbn [bind fst] in EF; [|discriminate].
  assert (LE : length es <= 1).
  { unfold canonical_geig_solve in EG. destruct (keep_eigenvalues _) as [s'|] eqn:EK; cbn [bind] in EG; [|discriminate]. cbv zeta in EG. injection EG as <- _. rewrite map_length.
    rewrite (Permutation.Permutation_length (sorted_perm _ _)), combine_length, seq_length, Nat.min_id, HL. apply keep_spec in EK. destruct EK as [-> _]. rewrite map_length.
    eapply Nat.le_trans; [apply filter_len|]. rewrite HL. apply Nat.le_refl. }
  unfold py_get in EF. rewrite (proj2 (nth_error_None es root)) in EF by lia. discriminate.
Qed.
Print Assumptions C82_excited_root_refuted.
(** refuted: the determinant without electrons as the first reference *)
Theorem C82_vacuum_refuted : forall eig o rest, mr_common_run eig o (Dets (repeat 0 (mr_nqb o) :: rest)) = Throw (PyError "UnboundLocalError").
Proof.
  intros eig o rest. unfold mr_common_run. cbv zeta. cbn [mr_states]. unfold det_states. rewrite Nat.add_1_r. cbn [seq foreach].
  assert (DO : DetOn (mr_nqb o) (repeat 0 (mr_nqb o))). { split; [apply repeat_length|]. apply Forall_forall. intros x Hx. apply repeat_spec in Hx. now left. }
  assert (E : det_state o (repeat 0 (mr_nqb o)) 0 None = Throw (PyError "UnboundLocalError")).
  { unfold det_state. rewrite (det_circuit_eq _ _ DO). cbn [bind]. assert (EX : existsb (fun j => Nat.eqb (nth j (repeat 0 (mr_nqb o)) 0) 1) (seq 0 (mr_nqb o)) = false).
    { apply not_true_is_false. intros H. apply existsb_exists in H. destruct H as (j & _ & Hj). destruct (Nat.lt_ge_cases j (length (repeat 0 (mr_nqb o)))) as [Lt|Ge]; [|rewrite nth_overflow in Hj by exact Ge; discriminate]. rewrite (repeat_spec _ _ _ (nth_In _ 0 Lt)) in Hj. discriminate. }
    rewrite EX. cbn [Nat.ltb Nat.leb bind fst snd]. destruct (xgates_prepare _ _ DO) as (PA & _). destruct (sim_apply (new_computer (mr_nqb o)) _ (new_computer_wf _) PA) as (QC & -> & _). reflexivity. }
  cbn [fst snd]. rewrite E. reflexivity.
Qed.
Print Assumptions C82_vacuum_refuted.
(** example: two qubits, H = Z_0, the reference 3/5 |10> + 4/5 |01> (or the determinant 10),
    two states that coincide (dt = 2 pi) *)
Definition mr_example : mr_options := mkMr 2 [1; 0] [(C1, [gate_Z])] 1 (2 * PI) 1 1 (Some 0) false true false true 1 1 1.
Example C82_nonvacuous : forall refs, refs = Adapted [[((3 / 5)%R, [1; 0]); ((4 / 5)%R, [0; 1])]] \/ refs = Dets [[1; 0]] ->
  exists r k Psi, let o := mr_example in let N := ref_count refs * (mr_s o + 1) in MrSetup o /\ UsableRefs (mr_nqb o) refs /\ mr_common_run two_eig o refs = Ok r /\
  (forall i m, i < ref_count refs -> m <= mr_s o -> EvolvedTo o m (wave refs i) (Psi i m)) /\
  GoodOverlap two_eig N (r_S r) /\ KeptFirst two_eig N (r_S r) k /\ EigCorrect two_eig k /\ NonzeroVectors two_eig k.
Proof.
  intros refs HR. set (o := mr_example). set (psi := wave refs 0).
  assert (HS : MrSetup o).
  { split; [|cbn; lia]. constructor; [|constructor]. split; [|reflexivity]. split; [split|].
    - constructor; [exists "Z"%string, 0; split; [cbn; tauto|reflexivity]|constructor].
    - repeat constructor; cbn; tauto.
    - repeat constructor. }
  assert (HC : ref_count refs = 1) by (destruct HR as [-> | ->]; reflexivity).
  assert (DA : DetOn 2 [1; 0]) by (split; [reflexivity|]; repeat constructor; tauto). assert (DB : DetOn 2 [0; 1]) by (split; [reflexivity|]; repeat constructor; tauto).
  assert (HU : UsableRefs (mr_nqb o) refs).
  { destruct HR as [-> | ->]; cbn [UsableRefs].
    - split; [cbn; lia|]. constructor; [|constructor]. split; [constructor; [exact DA|constructor; [exact DB|constructor]]|]. cbn [map snd]. constructor; [intros [H|[]]; discriminate|constructor; [intros []|constructor]].
    - constructor; [|constructor]. split; [exact DA|now left]. }
  assert (N1 : inner 2 psi psi = C1). { destruct HR as [-> | ->]; unfold psi, wave, ref_wave, inner; cbn; apply C_ext; cbn; field. }
  assert (HK : forall i m, i < ref_count refs -> m <= 1 -> EvolvedTo o m (wave refs i) psi).
  { intros i m Hi Hm. assert (i = 0) by lia. subst i. fold psi. unfold EvolvedTo, PropPy.trotter_factors. cbn [o mr_example mr_dt mr_trotter mr_ham map repeat concat app fst snd exp_product].
    exists (euler (- (INR m * (2 * PI))) (circ_act [gate_Z]) psi). split.
    - replace (mkC 0 (- (INR m * (2 * PI))) * C1 * RtoC (/ INR 1))%C with (mkC 0 (- (INR m * (2 * PI)))) by (cbn [INR]; rewrite Rinv_1; apply C_ext; cbn; ring).
      apply euler_is_exp; [apply circ_act_ext|]. intros a. apply word_invol. destruct HS as (HH & _). exact (string_word 2 _ (proj1 (Forall_inv HH))).
    - assert (TR : (cos (- (INR m * (2 * PI))) = 1 /\ sin (- (INR m * (2 * PI))) = 0)%R).
      { rewrite cos_neg, sin_neg. destruct m as [|[|]]; [cbn [INR]; rewrite Rmult_0_l, cos_0, sin_0; split; ring| |lia]. cbn [INR]. rewrite Rmult_1_l, cos_2PI, sin_2PI. split; ring. }
      intros I. unfold euler, sadd, sscale. rewrite (proj1 TR), (proj2 TR). apply C_ext; cbn; ring. }
  assert (EC : EigCorrect two_eig 1). { intros A. split; [reflexivity|]. intros i j Hi Hj. assert (i = 0) by lia. assert (j = 0) by lia. subst. unfold mdot. cbn. apply C_ext; cbn; ring. }
  assert (HN : ref_count refs * (mr_s o + 1) = 2) by (rewrite HC; reflexivity).
  destruct (C82_completes_partial two_eig o refs (fun _ _ => psi) 1 0 HS HU eq_refl eq_refl ltac:(lia) HK) as (r & E).
  { rewrite HN. intros S HSS. apply (two_eig_overlap S). intros a b Ha Hb. rewrite HSS by lia. exact N1. }
  { exact EC. }
  assert (HO : GoodOverlap two_eig 2 (r_S r) /\ KeptFirst two_eig 2 (r_S r) 1).
  { apply two_eig_overlap. intros a b Ha Hb. destruct (C82_matrices two_eig o refs r (fun _ _ => psi) HS HU E HK 0 a 0 b ltac:(lia) Ha ltac:(lia) Hb) as (H1 & _). unfold position in H1. rewrite !Nat.mul_0_l in H1. cbn [Nat.add] in H1. rewrite H1. exact N1. }
  exists r, 1, (fun _ _ => psi). cbv zeta. rewrite HN. split; [exact HS|]. split; [exact HU|]. split; [exact E|]. split; [exact HK|]. split; [apply HO|]. split; [apply HO|]. split; [exact EC|].
  intros A j Hj. exists 0. split; [lia|]. assert (j = 0) by lia. subst j. cbn. intros H. apply (f_equal Re) in H. cbn in H. lra.
Qed.
