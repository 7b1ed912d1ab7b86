(** C80: the determinants that MRSQK selects from its SRQK calculation. *)
From Coq Require Import Reals String List Arith NArith Bool Lia Lra Permutation Sorted.
From Verif Require Import CBase Result Bits Spec GateModel ComputerModel PyModel EigModel QkModel QkEig MrModel MrProofs MrRefs.
Import ListNotations.
Local Open Scope nat_scope.

(** Vocabulary: MrProofs.DetOn n d (occupation list of n zeros and ones), det_number d (its basis
    state); MrRefs.TopDets n num w refs (refs are [num] different determinants with the largest
    weights, in decreasing order), IsRoot l root j (entry j of l is a root-th lowest one),
    plain_weight (sum over the SRQK states of |coefficient|^2 |amplitude|^2). *)
Definition wanted (o : mr_options) : nat := if mr_sa o then 2 * mr_d o else mr_d o.
(** amplitude of basis state I in the SRQK eigenvector j *)
Definition eigenstate (k : srqk_data) (N j : nat) : state := combination N (fun m => k_evecs k m j) (fun m I => nth I (nth m (k_omega k) []) C0).
Definition OneOfTop (n num : nat) (w : nat -> R) (d : list nat) : Prop :=
  forall L, NoDup L -> Forall (fun e => DetOn n e /\ (w (det_number d) <= w (det_number e))%R) L -> length L <= num.
Definition Outranked (n num : nat) (w : nat -> R) (d : list nat) : Prop :=
  exists L, NoDup L /\ Forall (fun e => DetOn n e /\ (w (det_number d) < w (det_number e))%R) L /\ num <= length L.

Lemma top_in n num w refs d : TopDets n num w refs -> DetOn n d -> OneOfTop n num w d -> In d refs.
Proof.
  intros (L & ND & DO & _ & HT) Hd HO. destruct (in_dec (list_eq_dec Nat.eq_dec) d refs) as [H|H]; [exact H|exfalso]. specialize (HO (d :: refs)). cbn [length] in HO. rewrite L in HO.
  assert (S num <= num); [|lia]. apply HO; [now constructor|]. constructor; [split; [exact Hd|lra]|]. rewrite Forall_forall in *. intros e He. split; [now apply DO|now apply HT].
Qed.
Lemma top_out n num w refs d : TopDets n num w refs -> Outranked n num w d -> ~ In d refs.
Proof.
  intros (L & ND & DO & _ & HT) (M & NM & FM & LM) H.
  assert (HI : incl (d :: M) refs). { intros e [->|He]; [exact H|]. rewrite Forall_forall in FM. destruct (FM e He) as (De & We). destruct (in_dec (list_eq_dec Nat.eq_dec) e refs) as [H'|H']; [exact H'|exfalso]. specialize (HT d e H De H'). lra. }
  assert (NN : NoDup (d :: M)). { constructor; [|exact NM]. intros He. rewrite Forall_forall in FM. destruct (FM d He). lra. }
  pose proof (NoDup_incl_length NN HI) as HL. cbn [length] in HL. lia.
Qed.
Lemma ref_in_iff ref l : existsb (det_eqb ref) l = true <-> In ref l.
Proof.
  rewrite existsb_exists. unfold det_eqb. split; [intros (x & Hx & E); destruct (list_eq_dec Nat.eq_dec ref x); [subst; exact Hx|discriminate]|]. intros H. exists ref. split; [exact H|]. destruct (list_eq_dec Nat.eq_dec ref ref); congruence.
Qed.
(** both lists, and what becomes of them *)
Lemma build_refs_spec o k root : mr_nqb o <= 64 -> mr_root o = Some root -> let N := mr_so o + 1 in let ninit := Nat.min N (length (k_evals k)) in root < ninit -> wanted o <= 2 ^ mr_nqb o ->
  exists j refs true_refs, IsRoot (k_evals k) root j /\
    TopDets (mr_nqb o) (wanted o) (fun I => Re (cprime_sq_mod k N ninit (fun _ => j) root I)) refs /\ TopDets (mr_nqb o) (wanted o) (phase_weight k N j) true_refs /\
    build_refs o k = (if negb (existsb (det_eqb (mr_ref o)) true_refs) then Throw (PyError "NameError") else if negb (existsb (det_eqb (mr_ref o)) refs) then Throw (PyError "NameError") else Ok (if mr_phase o then true_refs else refs)).
Proof.
  intros Hn HR N ninit Hr Hw. set (old := fun n => snd (nth n (sorted_largest_idxs (k_evals k) false) (C0, 0))). exists (old root).
  destruct (largest_spec (mr_nqb o) (wanted o) (cprime_sq_mod k N ninit old root) Hn Hw) as (refs & E1 & T1). destruct (largest_spec (mr_nqb o) (wanted o) (cprime k N old root) Hn Hw) as (trefs & E2 & T2). exists refs, trefs.
  split; [apply root_spec; unfold ninit in Hr; lia|]. split; [exact T1|]. split.
  { destruct T2 as (A & B & D & E & F). split; [exact A|]. split; [exact B|]. split; [exact D|]. split.
    - rewrite <- (map_id trefs). eapply sorted_map; [|exact E]. intros a b _ _ H. cbn beta in H. rewrite !cprime_re in H. exact H.
    - intros d e Hd He Hne. specialize (F d e Hd He Hne). cbn beta in F. rewrite !cprime_re in F. exact F. }
  unfold build_refs. rewrite HR. fold N ninit. cbv zeta. fold old. fold (wanted o). rewrite (proj2 (Nat.ltb_lt _ _) Hr). cbn [negb]. rewrite E1. cbn [bind]. rewrite E2. reflexivity.
Qed.
Lemma build_refs_ok o k refs : mr_nqb o <= 64 -> build_refs o k = Ok refs -> exists root, mr_root o = Some root /\ root < Nat.min (mr_so o + 1) (length (k_evals k)) /\ wanted o <= 2 ^ mr_nqb o.
Proof.
  intros Hn E. unfold build_refs in E. cbv zeta in E. destruct (mr_root o) as [root|]; [|discriminate]. exists root. split; [reflexivity|]. destruct (Nat.ltb_spec root (Nat.min (mr_so o + 1) (length (k_evals k)))) as [Lt|]; cbn [negb] in E; [|discriminate]. split; [exact Lt|].
  fold (wanted o) in E. destruct (Nat.le_gt_cases (wanted o) (2 ^ mr_nqb o)) as [H|H]; [exact H|]. rewrite largest_short in E by exact H. discriminate.
Qed.
Lemma top_ext n num w w' refs : (forall I, w I = w' I) -> TopDets n num w refs -> TopDets n num w' refs.
Proof.
  intros HE (A & B & D & E & F). split; [exact A|]. split; [exact B|]. split; [exact D|]. split.
  - rewrite <- (map_id refs). eapply sorted_map; [|exact E]. intros a b _ _ H. cbn beta in H. rewrite <- !HE. exact H.
  - intros d e Hd He Hne. rewrite <- !HE. now apply F.
Qed.
(** default selection, when SRQK kept all its states: the determinants of largest weight in the
    target state, and the reference is one of them *)
Theorem C80_selection_partial : forall o k refs, mr_nqb o <= 64 -> mr_phase o = false -> length (k_evals k) = mr_so o + 1 -> build_refs o k = Ok refs ->
  exists root j, mr_root o = Some root /\ IsRoot (k_evals k) root j /\ TopDets (mr_nqb o) (wanted o) (plain_weight k (mr_so o + 1) j) refs /\ In (mr_ref o) refs.
Proof.
  intros o k refs Hn HP HL E. destruct (build_refs_ok o k refs Hn E) as (root & HR & Hr & Hw). destruct (build_refs_spec o k root Hn HR Hr Hw) as (j & l & tl & RJ & T1 & T2 & EB). cbv zeta in EB. rewrite E in EB. exists root, j. split; [exact HR|]. split; [exact RJ|].
  destruct (existsb (det_eqb (mr_ref o)) tl) eqn:E1; cbn [negb] in EB; [|discriminate]. destruct (existsb (det_eqb (mr_ref o)) l) eqn:E2; cbn [negb] in EB; [|discriminate]. rewrite HP in EB. injection EB as ->. split; [|now apply ref_in_iff].
  eapply top_ext; [|exact T1]. intros I. apply (cprime_sq_re k (mr_so o + 1) (Nat.min (mr_so o + 1) (length (k_evals k))) (fun _ => j) root I). lia.
Qed.
Print Assumptions C80_selection_partial.
(** phase based selection: the determinants with the largest probabilities in the target state
    itself, if its coefficients are real *)
Theorem C80_phase_selection_partial : forall o k refs, mr_nqb o <= 64 -> mr_phase o = true -> build_refs o k = Ok refs -> (forall m j, Im (k_evecs k m j) = 0%R) ->
  exists root j, mr_root o = Some root /\ IsRoot (k_evals k) root j /\ TopDets (mr_nqb o) (wanted o) (fun I => Cnorm2 (eigenstate k (mr_so o + 1) j I)) refs /\ In (mr_ref o) refs.
Proof.
  intros o k refs Hn HP E HI. destruct (build_refs_ok o k refs Hn E) as (root & HR & Hr & Hw). destruct (build_refs_spec o k root Hn HR Hr Hw) as (j & l & tl & RJ & T1 & T2 & EB). cbv zeta in EB. rewrite E in EB. exists root, j. split; [exact HR|]. split; [exact RJ|].
  destruct (existsb (det_eqb (mr_ref o)) tl) eqn:E1; cbn [negb] in EB; [|discriminate]. destruct (existsb (det_eqb (mr_ref o)) l) eqn:E2; cbn [negb] in EB; [|discriminate]. rewrite HP in EB. injection EB as ->. split; [|now apply ref_in_iff].
  eapply top_ext; [|exact T2]. intros I. unfold phase_weight, eigenstate, combination. f_equal. apply Csum_ext. intros m _. unfold amplitude. f_equal. apply C_ext; cbn; [reflexivity|]. rewrite HI. ring.
Qed.
Print Assumptions C80_phase_selection_partial.
(** the selection succeeds when the reference is among the determinants of largest weight by
    both criteria (kept states: all) *)
Theorem C80_succeeds_partial : forall o k root, mr_nqb o <= 64 -> DetOn (mr_nqb o) (mr_ref o) -> mr_root o = Some root -> root <= mr_so o -> length (k_evals k) = mr_so o + 1 -> wanted o <= 2 ^ mr_nqb o ->
  (forall j, IsRoot (k_evals k) root j -> OneOfTop (mr_nqb o) (wanted o) (plain_weight k (mr_so o + 1) j) (mr_ref o) /\ OneOfTop (mr_nqb o) (wanted o) (phase_weight k (mr_so o + 1) j) (mr_ref o)) ->
  exists refs, build_refs o k = Ok refs.
Proof.
  intros o k root Hn HD HR Hr HL Hw HT. destruct (build_refs_spec o k root Hn HR) as (j & l & tl & RJ & T1 & T2 & EB); [lia|exact Hw|]. destruct (HT j RJ) as (H1 & H2). rewrite EB.
  rewrite (proj2 (ref_in_iff _ _) (top_in _ _ _ _ _ T2 HD H2)). cbn [negb].
  assert (T1' : TopDets (mr_nqb o) (wanted o) (plain_weight k (mr_so o + 1) j) l) by (eapply top_ext; [|exact T1]; intros I; apply (cprime_sq_re k (mr_so o + 1) (Nat.min (mr_so o + 1) (length (k_evals k))) (fun _ => j) root I); lia).
  rewrite (proj2 (ref_in_iff _ _) (top_in _ _ _ _ _ T1' HD H1)). cbn [negb]. eexists. reflexivity.
Qed.
Print Assumptions C80_succeeds_partial.
(** refuted: "the reference determinant is added when it is not selected".  The code then uses a
    name that is not defined; even the criterion that is not in use triggers this. *)
Theorem C80_name_error_refuted : forall o k root, mr_nqb o <= 64 -> mr_root o = Some root -> root <= mr_so o -> length (k_evals k) = mr_so o + 1 -> wanted o <= 2 ^ mr_nqb o ->
  (forall j, IsRoot (k_evals k) root j -> Outranked (mr_nqb o) (wanted o) (plain_weight k (mr_so o + 1) j) (mr_ref o) \/ Outranked (mr_nqb o) (wanted o) (phase_weight k (mr_so o + 1) j) (mr_ref o)) ->
  build_refs o k = Throw (PyError "NameError").
Proof.
  intros o k root Hn HR Hr HL Hw HT. destruct (build_refs_spec o k root Hn HR) as (j & l & tl & RJ & T1 & T2 & EB); [lia|exact Hw|]. rewrite EB.
  assert (T1' : TopDets (mr_nqb o) (wanted o) (plain_weight k (mr_so o + 1) j) l) by (eapply top_ext; [|exact T1]; intros I; apply (cprime_sq_re k (mr_so o + 1) (Nat.min (mr_so o + 1) (length (k_evals k))) (fun _ => j) root I); lia).
  destruct (existsb (det_eqb (mr_ref o)) tl) eqn:E1; cbn [negb]; [|reflexivity]. destruct (existsb (det_eqb (mr_ref o)) l) eqn:E2; cbn [negb]; [|reflexivity]. exfalso. apply ref_in_iff in E1, E2.
  destruct (HT j RJ) as [H|H]; [exact (top_out _ _ _ _ _ T1' H E2)|exact (top_out _ _ _ _ _ T2 H E1)].
Qed.
Print Assumptions C80_name_error_refuted.
(** the other exceptions *)
Theorem C80_raises : forall o k,
  (mr_root o = None -> build_refs o k = Throw (PyError "NotImplementedError")) /\
  (forall root, mr_root o = Some root -> Nat.min (mr_so o + 1) (length (k_evals k)) <= root -> build_refs o k = Throw (PyError "IndexError")) /\
  (forall root, mr_root o = Some root -> root < Nat.min (mr_so o + 1) (length (k_evals k)) -> 2 ^ mr_nqb o < wanted o -> build_refs o k = Throw (PyError "IndexError")).
Proof.
  intros o k. split; [|split]; [intros HR|intros root HR H|intros root HR H Hw]; unfold build_refs; cbv zeta; rewrite HR; try reflexivity.
  - rewrite (proj2 (Nat.ltb_ge _ _) H). reflexivity.
  - rewrite (proj2 (Nat.ltb_lt _ _) H). cbn [negb]. fold (wanted o). rewrite largest_short by exact Hw. reflexivity.
Qed.
Print Assumptions C80_raises.

(** ---- examples ---- *)
Lemma dets2 e : DetOn 2 e -> e = [0; 0] \/ e = [1; 0] \/ e = [0; 1] \/ e = [1; 1].
Proof. intros [L H]. destruct e as [|a [|b [|]]]; try discriminate. inversion H as [|? ? Ha H1]; subst. inversion H1 as [|? ? Hb _]; subst. destruct Ha as [-> | ->], Hb as [-> | ->]; tauto. Qed.
Lemma is_det2 a b : (a = 0 \/ a = 1) -> (b = 0 \/ b = 1) -> DetOn 2 [a; b].
Proof. intros Ha Hb. split; [reflexivity|]. constructor; [exact Ha|]. constructor; [exact Hb|constructor]. Qed.
(** two states with amplitudes (1/2, 7/10, 1/2, 1/10) and (1/2, 7i/10, -i/2, 1/10), coefficients
    1 and i (or 1 and 1, eigenvector 1): one determinant is asked for *)
Definition two_states (c : C) : srqk_data := mkSrqk [C0; C1] (fun m j => match m with 0 => C1 | _ => c end)
  [[RtoC (1 / 2); RtoC (7 / 10); RtoC (1 / 2); RtoC (1 / 10)]; [RtoC (1 / 2); mkC 0 (7 / 10); mkC 0 (- (1 / 2)); RtoC (1 / 10)]].
Definition one_det (phase : bool) : mr_options := mkMr 2 [1; 0] [] 1 1 1 1 (Some 0) phase false true true 1 1 1.
Lemma weights_in_top (w : nat -> R) : (w 0%nat < w 1%nat)%R -> (w 2%nat < w 1%nat)%R -> (w 3%nat < w 1%nat)%R -> OneOfTop 2 1 w [1; 0].
Proof.
  intros H0 H2 H3 L ND HF. assert (HI : incl L [[1; 0]]).
  { intros e He. rewrite Forall_forall in HF. destruct (HF e He) as (De & We). destruct (dets2 e De) as [-> | [-> | [-> | ->]]]; cbn in We; try (exfalso; lra). now left. }
  exact (NoDup_incl_length ND HI).
Qed.
Lemma two_states_top c j : Cnorm2 c = 1%R -> let w := phase_weight (two_states c) 2 j in OneOfTop 2 1 (plain_weight (two_states c) 2 j) [1; 0] /\ (c = Ci -> OneOfTop 2 1 w [1; 0]).
Proof.
  intros Hc w. split.
  - apply weights_in_top; unfold plain_weight, amplitude, two_states; cbn [seq map fold_right k_evecs k_omega nth]; rewrite Hc; unfold Cnorm2; cbn; lra.
  - intros ->. apply weights_in_top; unfold w, phase_weight, amplitude, two_states; cbn [seq k_evecs k_omega nth]; rewrite !Csum_cons, Csum_nil; unfold Cnorm2; cbn; lra.
Qed.
Lemma two_states_ok phase : exists refs, build_refs (one_det phase) (two_states Ci) = Ok refs.
Proof.
  apply (C80_succeeds_partial (one_det phase) (two_states Ci) 0); try reflexivity; try (cbn; lia).
  - apply is_det2; tauto.
  - intros j _. destruct (two_states_top Ci j) as (H1 & H2); [unfold Cnorm2; cbn; ring|]. split; [exact H1|exact (H2 eq_refl)].
Qed.
(** the hypotheses of C80_selection_partial and C80_succeeds_partial are met *)
Example C80_nonvacuous : exists refs, build_refs (one_det false) (two_states Ci) = Ok refs /\ mr_phase (one_det false) = false /\ length (k_evals (two_states Ci)) = mr_so (one_det false) + 1 /\ refs = [[1; 0]].
Proof.
  destruct (two_states_ok false) as (refs & E). exists refs. split; [exact E|]. split; [reflexivity|]. split; [reflexivity|]. destruct (C80_selection_partial (one_det false) (two_states Ci) refs ltac:(cbn; lia) eq_refl eq_refl E) as (root & j & _ & _ & (L & _) & HI). cbn [mr_ref one_det] in HI.
  destruct refs as [|a [|]]; cbn in L; try discriminate. destruct HI as [->|[]]. reflexivity.
Qed.
(** refuted: phase based selection with complex coefficients conjugates them.  Here it selects a
    determinant of probability 0 and misses one of probability 1. *)
Theorem C80_phase_conjugate_refuted : exists o k refs d e, mr_phase o = true /\ build_refs o k = Ok refs /\ In d refs /\ DetOn (mr_nqb o) e /\ ~ In e refs /\
  forall j, Cnorm2 (eigenstate k (mr_so o + 1) j (det_number d)) = 0%R /\ Cnorm2 (eigenstate k (mr_so o + 1) j (det_number e)) = 1%R.
Proof.
  destruct (two_states_ok true) as (refs & E). exists (one_det true), (two_states Ci), refs, [1; 0], [0; 1]. split; [reflexivity|]. split; [exact E|].
  destruct (build_refs_spec (one_det true) (two_states Ci) 0 ltac:(cbn; lia) eq_refl ltac:(cbn; lia) ltac:(cbn; lia)) as (j & l & tl & RJ & T1 & T2 & EB). cbv zeta in EB. rewrite E in EB.
  destruct (existsb _ tl) eqn:E1 in EB; cbn [negb] in EB; [|discriminate]. destruct (existsb _ l) in EB; cbn [negb] in EB; [|discriminate]. cbn [mr_phase one_det] in EB. injection EB as ->. apply ref_in_iff in E1. cbn [mr_ref one_det] in E1. split; [exact E1|]. split; [apply is_det2; tauto|]. split.
  - destruct T2 as (L & _). cbn in L. destruct tl as [|a [|]]; cbn in L; try discriminate. destruct E1 as [->|[]]. intros [H|[]]. discriminate.
  - intros i. unfold eigenstate, combination. cbn [mr_so one_det Nat.add seq k_evecs k_omega two_states nth det_number fold_right Nat.mul]. rewrite !Csum_cons, !Csum_nil. unfold Cnorm2. cbn. split; field.
Qed.
Print Assumptions C80_phase_conjugate_refuted.
(** refuted: default selection when SRQK dropped states.  The amplitudes of the last states are
    then not squared: here weight 36/100 is preferred to 64/100. *)
Definition dropped : srqk_data := mkSrqk [C0] (fun _ _ => C1) [[C0; C1; C0; C0]; [RtoC (3 / 5); C0; RtoC (- (4 / 5)); C0]].
Definition two_dets : mr_options := mkMr 2 [1; 0] [] 1 1 2 1 (Some 0) false false true true 1 1 1.
Theorem C80_truncated_refuted : exists o k refs d e, mr_phase o = false /\ length (k_evals k) < mr_so o + 1 /\ build_refs o k = Ok refs /\ In d refs /\ DetOn (mr_nqb o) e /\ ~ In e refs /\
  forall j, (plain_weight k (mr_so o + 1) j (det_number d) < plain_weight k (mr_so o + 1) j (det_number e))%R.
Proof.
  destruct (build_refs_spec two_dets dropped 0 ltac:(cbn; lia) eq_refl ltac:(cbn; lia) ltac:(cbn; lia)) as (j & l & tl & RJ & T1 & T2 & EB). cbv zeta in EB. cbn [mr_nqb wanted mr_sa mr_d two_dets] in T1, T2.
  set (w := fun I => Re (cprime_sq_mod dropped (mr_so two_dets + 1) (Nat.min (mr_so two_dets + 1) (length (k_evals dropped))) (fun _ => j) 0 I)) in T1.
  assert (W : w 0 = (3 / 5)%R /\ w 1 = 1%R /\ w 2 = (- (4 / 5))%R /\ w 3 = 0%R).
  { unfold w, cprime_sq_mod, omega_at. cbn [mr_so two_dets k_evals dropped length Nat.add Nat.min seq k_evecs k_omega nth]. rewrite !Csum_cons, !Csum_nil. cbn. repeat split; field. }
  destruct W as (W0 & W1 & W2 & W3).
  assert (PW : phase_weight dropped 2 j 0 = (9 / 25)%R /\ phase_weight dropped 2 j 1 = 1%R /\ phase_weight dropped 2 j 2 = (16 / 25)%R /\ phase_weight dropped 2 j 3 = 0%R).
  { unfold phase_weight, amplitude. cbn [seq k_evecs k_omega dropped nth]. rewrite !Csum_cons, !Csum_nil. unfold Cnorm2. cbn. repeat split; field. }
  destruct PW as (V0 & V1 & V2 & V3).
  assert (I1 : forall d, d = [1; 0] \/ d = [0; 0] -> In d l).
  { intros d Hd. apply (top_in 2 2 w l); [exact T1|destruct Hd as [-> | ->]; apply is_det2; tauto|]. intros L ND HF. apply (NoDup_incl_length ND (l' := [[1; 0]; [0; 0]])). intros e He. rewrite Forall_forall in HF. destruct (HF e He) as (De & We).
    destruct (dets2 e De) as [-> | [-> | [-> | ->]]]; cbn [In]; try tauto; exfalso; destruct Hd as [-> | ->]; cbn [det_number fold_right Nat.mul Nat.add] in We; lra. }
  assert (I2 : ~ In [0; 1] l). { apply (top_out 2 2 w l); [exact T1|]. exists [[1; 0]; [0; 0]]. split; [constructor; [intros [H|[]]; discriminate|constructor; [intros []|constructor]]|]. split; [|reflexivity]. constructor; [|constructor; [|constructor]]; (split; [apply is_det2; tauto|]); cbn [det_number fold_right Nat.mul Nat.add]; lra. }
  assert (I3 : In [1; 0] tl). { apply (top_in 2 2 (phase_weight dropped 2 j) tl); [exact T2|apply is_det2; tauto|]. intros L ND HF. apply (NoDup_incl_length ND (l' := [[1; 0]; [0; 1]])). intros e He. rewrite Forall_forall in HF. destruct (HF e He) as (De & We).
    destruct (dets2 e De) as [-> | [-> | [-> | ->]]]; cbn [In]; try tauto; exfalso; cbn [det_number fold_right Nat.mul Nat.add] in We; lra. }
  exists two_dets, dropped, l, [0; 0], [0; 1]. split; [reflexivity|]. split; [cbn; lia|]. split.
  - rewrite EB. cbn [mr_ref two_dets]. rewrite (proj2 (ref_in_iff _ _) I3), (proj2 (ref_in_iff _ _) (I1 [1; 0] (or_introl eq_refl))). reflexivity.
  - split; [apply I1; tauto|]. split; [apply is_det2; tauto|]. split; [exact I2|]. intros i. unfold plain_weight, amplitude. cbn [mr_so two_dets Nat.add seq map fold_right k_evecs k_omega dropped nth det_number Nat.mul]. unfold Cnorm2. cbn. lra.
Qed.
Print Assumptions C80_truncated_refuted.
(** an instance of C80_name_error_refuted: one determinant is asked for, the reference is
    another one *)
Example C80_name_error_nonvacuous : build_refs (mkMr 2 [0; 1] [] 1 1 1 1 (Some 0) false false true true 1 1 1) (two_states Ci) = Throw (PyError "NameError").
Proof.
  apply (C80_name_error_refuted _ _ 0); try reflexivity; try (cbn; lia). intros j _. left. exists [[1; 0]]. split; [constructor; [intros []|constructor]|]. split; [|reflexivity]. constructor; [|constructor]. split; [apply is_det2; tauto|].
  unfold plain_weight, amplitude, two_states. cbn [mr_so mr_ref Nat.add seq map fold_right k_evecs k_omega nth det_number Nat.mul]. unfold Cnorm2. cbn. lra.
Qed.
