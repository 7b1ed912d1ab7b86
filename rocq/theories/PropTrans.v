(** Property theorems C42 (Pauli-word organizers), C54 (import of fermionic terms) and C55
    (Python-side Jordan-Wigner transformation and conversion to circuits).
    Words, organizers and their meaning: TransSpec.v.  Ladder operators: SQSpec.v. *)
From Coq Require Import Reals String List Arith Lia Bool Lra.
From Verif Require Import CBase Result Bits Spec OpSpec SQSpec GateModel OperatorModel TransModel TransSpec TransProofs TransOps FermiProofs.
Import ListNotations.
Local Open Scope C_scope.
Local Open Scope string_scope.

(** ---- vocabulary ---- *)
(** every letter is X, Y or Z *)
Definition PauliWord (w : list (string * nat)) : Prop := Forall pauli_letter w.
(** normal form: Pauli letters on strictly increasing qubits *)
Definition Normal (o : list (C * list (string * nat))) : Prop := Forall (fun t => PauliWord (snd t) /\ increasing_word (snd t)) o.
(** different terms carry different words *)
Definition DistinctWords (o : list (C * list (string * nat))) : Prop := NoDup (map snd o).
(** different words, every coefficient at most 1e-10 *)
Definition Negligible (o : list (C * list (string * nat))) : Prop := Forall (fun t => (Cabs (fst t) <= 1e-10)%R) o /\ DistinctWords o.
(** the two sums of words act the same up to the negligible sum [d] *)
Definition SameUpTo (d : list (C * list (string * nat))) (A : state -> state) (o : list (C * list (string * nat))) : Prop :=
  forall psi I, A psi I = org_act o psi I + org_act d psi I.

(** ---- C42 ---- *)
(** full statement: for every organizer of Pauli words.  Holds when no word has more than two
    letters on the same qubit. *)
Theorem C42_pauli_condense_partial : forall o, Forall (fun t => PauliWord (snd t) /\ at_most 2 (snd t)) o ->
  exists o', pauli_condense o = Ok o' /\ length o' = length o /\ Normal o' /\ forall psi I, org_act o' psi I = org_act o psi I.
Proof. intros o H. destruct (condense_spec o H) as (o' & E & N & L & A). exists o'. split; [exact E|]. split; [exact L|]. split; [exact N|]. exact A. Qed.
(** three letters on one qubit: the product X X X is X, but the identity word is returned *)
Theorem C42_pauli_condense_refuted : exists o o', Forall (fun t => PauliWord (snd t)) o /\ pauli_condense o = Ok o' /\ exists psi I, org_act o' psi I <> org_act o psi I.
Proof.
  exists [(C1, [("X", 0); ("X", 0); ("X", 0)]%nat)], [((C1 * C1 * C1)%C, [])]. split; [|split; [reflexivity|]].
  - constructor; [|constructor]. cbn. repeat (apply Forall_nil || apply Forall_cons); unfold pauli_letter; cbn; auto.
  - exists (fun I => if Nat.eqb I 0 then C1 else C0), 0%nat. unfold org_act. rewrite !Csum_cons, !Csum_nil. cbn. intros H. apply (f_equal Re) in H. unfold Re, C1, C0, Cmul, Cadd in H. cbn in H. lra.
Qed.
(** a word with an identity letter beside another letter on its right is rejected *)
Theorem C42_condense_identity_rejected : forall q, pauli_condense [(C1, [("X", q); ("I", q)])] = Throw (PyError "KeyError").
Proof. intros q. unfold pauli_condense. cbn [mapM snd fst]. unfold sort_word. cbn [fold_right insert_letter snd]. rewrite Nat.leb_refl. cbn [length condense_loop take_run snd]. rewrite !Nat.eqb_refl. reflexivity. Qed.

(** combine_like_terms adds the coefficients of equal words; exactly the words whose total is
    at most 1e-10 in modulus are dropped *)
Theorem C42_combine_like_terms : forall o, exists dropped,
  SameUpTo dropped (org_act (concat o)) (combine_like_terms o) /\ Negligible dropped /\
  Forall (fun t => (1e-10 < Cabs (fst t))%R) (combine_like_terms o) /\
  DistinctWords (combine_like_terms o ++ dropped) /\
  (forall w, In w (map snd (combine_like_terms o ++ dropped)) <-> In w (map snd (concat o))).
Proof.
  intros o. destruct (combine_spec o) as (d & A & H1 & H2 & H3 & H4). exists d. split; [exact A|]. split; [split; [exact H2|]|auto].
  unfold DistinctWords. rewrite map_app in H3. induction (map snd (combine_like_terms o)) as [|x l IH]; [exact H3|]. apply IH. inversion H3; assumption.
Qed.
Theorem C42_join_organizers : forall L R, Normal L -> Normal R ->
  exists o dropped, join_organizers L R = Ok o /\ Normal o /\ DistinctWords o /\ Negligible dropped /\
  SameUpTo dropped (fun psi => org_act L (org_act R psi)) o.
Proof. intros L R HL HR. destruct (join_spec L R HL HR) as (o & d & E & N & D & S & A). exists o, d. repeat split; auto; try apply S. Qed.
Theorem C42_join_commutator : forall H A, Normal H -> Normal A ->
  exists o dropped, join_H_Am_organizers H A = Ok o /\ Normal o /\ DistinctWords o /\ Negligible dropped /\
  SameUpTo dropped (fun psi I => org_act H (org_act A psi) I - org_act A (org_act H psi) I) o.
Proof. intros L R HL HR. destruct (join_commutator_spec L R HL HR) as (o & d & E & N & D & S & A). exists o, d. repeat split; auto; try apply S. Qed.
(** [X0 Y1, Z1] = 2i X0 X1: nothing vanishes, nothing is dropped *)
Example C42_nonvacuous : Normal [(C1, [("X", 0); ("Y", 1)]%nat)] /\ Normal [(C1, [("Z", 1)]%nat)] /\
  exists c, join_organizers [(C1, [("X", 0); ("Y", 1)]%nat)] [(C1, [("Z", 1)]%nat)] = Ok [(c, [("X", 0); ("X", 1)]%nat)] /\ c = Ci.
Proof.
  split; [|split].
  - constructor; [|constructor]. cbn. split; [repeat (apply Forall_nil || apply Forall_cons); unfold pauli_letter; cbn; auto|]. split; [lia|exact I].
  - constructor; [|constructor]. cbn. split; [repeat (apply Forall_nil || apply Forall_cons); unfold pauli_letter; cbn; auto|exact I].
  - exists (C1 * C1 * Ci)%C. split; [|csolve]. unfold join_organizers, join_raw. cbn.
    unfold combine_like_terms. cbn [fold_left dict_add fst snd filter map].
    match goal with |- context [Rltb ?a ?b] => replace (Rltb a b) with true; [reflexivity|] end.
    replace (C1 * C1 * Ci)%C with Ci by csolve. symmetry. unfold Rltb. destruct (Rlt_dec _ _) as [|n]; [reflexivity|].
    exfalso. apply n. unfold Cabs, Cnorm2, Ci. cbn. replace (0 * 0 + 1 * 1)%R with 1%R by lra. rewrite sqrt_1. lra.
Qed.

(** ---- C54 ---- *)
(** normal-ordered, number-conserving: k creators followed by k annihilators *)
Definition NormalOrdered (l : list (nat * bool)) : Prop := exists cre ann, l = (map (fun p => (p, true)) cre ++ map (fun p => (p, false)) ann)%list /\ length cre = length ann.
(** every normal-ordered operator is converted: the index list keeps the order *)
Theorem C54_normal_ordered_accepted : forall f, Forall (fun t => NormalOrdered (fst t)) f ->
  fermop_to_sq_excitation f = Ok (map (fun t => (map fst (fst t), snd t)) f).
Proof.
  intros f H. apply fermop_spec. split; [|reflexivity]. eapply Forall_impl; [|exact H]. intros t (cre & ann & E & EL). rewrite E.
  unfold accepted, creators, annihilators. rewrite !filter_app, !app_length, !map_length, EL.
  assert (F1 : forall l, filter (fun x : nat * bool => snd x) (map (fun p => (p, true)) l) = map (fun p => (p, true)) l) by (induction l; cbn; congruence).
  assert (F2 : forall l, filter (fun x : nat * bool => snd x) (map (fun p => (p, false)) l) = []) by (induction l; cbn; congruence).
  assert (F3 : forall l, filter (fun x : nat * bool => negb (snd x)) (map (fun p => (p, true)) l) = []) by (induction l; cbn; congruence).
  assert (F4 : forall l, filter (fun x : nat * bool => negb (snd x)) (map (fun p => (p, false)) l) = map (fun p => (p, false)) l) by (induction l; cbn; congruence).
  rewrite F1, F2, F3, F4, !map_length. cbn [length]. split; [|split].
  - apply Nat.even_spec. exists (length ann). lia.
  - lia.
  - replace (length ann + length ann)%nat with (length ann * 2)%nat by lia. rewrite Nat.div_mul by lia. rewrite firstn_app, map_length, EL.
    replace (length ann - 1 - length ann)%nat with 0%nat by lia. cbn [firstn]. rewrite app_nil_r. apply Forall_forall. intros x Hx.
    apply (in_map (fun x => x)) in Hx. rewrite map_id in Hx. assert (In x (map (fun p => (p, true)) cre)) as Hy.
    { rewrite <- (firstn_skipn (length ann - 1) (map _ cre)). apply in_or_app. left. exact Hx. }
    apply in_map_iff in Hy. destruct Hy as (p & <- & _). reflexivity.
Qed.
(** full statement: anything else is rejected.  Exactly the operators in which every term has
    even length, as many creators as annihilators, and creators in all but the last place of
    its first half are accepted; everything else raises ValueError. *)
Theorem C54_accepted_iff_partial : forall f,
  (Forall (fun t => accepted (fst t)) f -> fermop_to_sq_excitation f = Ok (map (fun t => (map fst (fst t), snd t)) f)) /\
  (~ Forall (fun t => accepted (fst t)) f -> fermop_to_sq_excitation f = Throw (PyError "ValueError")).
Proof.
  intros f. split.
  - intros H. apply fermop_spec. split; [exact H|reflexivity].
  - intros H. change (fermop_to_sq_excitation f) with (mapM fermop_body f). induction f as [|t f IH]; [exfalso; apply H; constructor|]. cbn [mapM].
    destruct (fermop_body t) as [r|e] eqn:E.
    + pose proof (proj1 (fermop_body_spec t r) E) as [HA _]. cbn [bind]. rewrite IH; [reflexivity|]. intros HF. apply H. constructor; assumption.
    + cbn [bind]. assert (HN : ~ accepted (fst t)) by (intros HA; rewrite (proj2 (fermop_body_spec t _) (conj HA eq_refl)) in E; discriminate).
      rewrite (fermop_body_err t HN) in E. injection E as <-. reflexivity.
Qed.
(** the term a_0 a^_1 is not normal ordered, but is accepted and becomes the term [0, 1], which
    every other function reads as a^_0 a_1 *)
Theorem C54_input_check_refuted : exists f r, ~ Forall (fun t => NormalOrdered (fst t)) f /\ fermop_to_sq_excitation f = Ok r /\
  exists t, In t r /\ exists psi I, ladder_act (sq_creators (fst t)) (sq_annihilators (fst t)) psi I <> annihilate 0 (create 1 psi) I.
Proof.
  exists [([(0, false); (1, true)]%nat, C1)], [([0; 1]%nat, C1)]. split; [|split; [reflexivity|]].
  - intros H. inversion H as [|? ? (cre & ann & E & EL) _]; subst. cbn in E. destruct cre as [|p cre]; cbn in E; [|discriminate].
    destruct ann as [|a ann]; [discriminate|]. cbn in EL. discriminate.
  - eexists. split; [left; reflexivity|]. exists (fun I => if Nat.eqb I 2 then C1 else C0), 1%nat.
    cbn. intros H. apply (f_equal Re) in H. cbn in H. lra.
Qed.

(** ---- C55 ---- *)
(** the fermionic operator meant by a list of (indices, amplitude): in every term the first
    half of the indices are creators, the second half annihilators *)
Definition sq_operator (sq : list (list nat * C)) (psi : state) : state := fun I =>
  Csum (fun t => snd t * ladder_act (firstn (length (fst t) / 2) (fst t)) (skipn (length (fst t) / 2) (fst t)) psi I) sq.
(** its adjoint: a^_p1 .. a_q1 .. becomes .. a^_q1 .. a_p1 with the conjugate replaced by the
    same amplitude (the code assumes real amplitudes) *)
Definition sq_transposed (sq : list (list nat * C)) (psi : state) : state := fun I =>
  Csum (fun t => snd t * ladder_act (rev (skipn (length (fst t) / 2) (fst t))) (rev (firstn (length (fst t) / 2) (fst t))) psi I) sq.
Theorem C55_single_term : forall ops c, exists o, get_single_term_jw_organizer (ops, c) = Ok o /\ Normal o /\
  forall psi I, org_act o psi I = sq_operator [(ops, c)] psi I.
Proof.
  intros ops c. destruct (single_term_spec ops c) as (o & E & N & A). exists o. split; [exact E|]. split; [exact N|]. intros psi I. rewrite A. unfold sq_operator. rewrite Csum_cons, Csum_nil. cbn [fst snd]. unfold sscale, sq_creators, sq_annihilators. ring.
Qed.
Theorem C55_jw_organizer : forall sq, exists o dropped, get_jw_organizer sq = Ok o /\ Normal o /\ DistinctWords o /\ Negligible dropped /\
  SameUpTo dropped (sq_operator sq) o.
Proof.
  intros sq. destruct (jw_organizer_spec sq) as (o & d & E & N & D & S & A). exists o, d. split; [exact E|]. split; [exact N|]. split; [exact D|]. split; [exact S|].
  intros psi I. transitivity (fermi_act (map as_fterm sq) psi I); [|exact (A psi I)]. unfold sq_operator, fermi_act. rewrite Csum_map. reflexivity.
Qed.
Theorem C55_ucc_organizer : forall sq, Forall (fun t => Nat.even (length (fst t)) = true) sq ->
  exists o dropped, get_ucc_jw_organizer sq false = Ok o /\ Normal o /\ DistinctWords o /\ Negligible dropped /\
  SameUpTo dropped (fun psi I => sq_operator sq psi I - sq_transposed sq psi I) o.
Proof.
  intros sq HE. destruct (ucc_organizer_spec sq HE) as (o & d & E & N & D & S & A). exists o, d. split; [exact E|]. split; [exact N|]. split; [exact D|]. split; [exact S|].
  intros psi I. cbv beta. pose proof (A psi I) as A'. unfold sadd in A'. rewrite <- A'. unfold sq_operator, sq_transposed, fermi_act. rewrite !Csum_map.
  match goal with |- _ - ?b = _ + ?c => assert (E' : c = - b) end.
  { transitivity (RtoC (-1) * Csum (fun t => snd t * ladder_act (rev (skipn (length (fst t) / 2) (fst t))) (rev (firstn (length (fst t) / 2) (fst t))) psi I) sq); [rewrite <- Csum_mul_l; apply Csum_ext; intros t _|csolve]. unfold neg_term, dagger, as_fterm, fcoef, fcre, fann. cbn [fst snd]. unfold sq_creators, sq_annihilators. csolve. }
  rewrite E'. unfold Csub. reflexivity.
Qed.
(** for real amplitudes sq_transposed is the adjoint on n qubits, so the organizer is anti-Hermitian *)
Theorem C55_transposed_is_adjoint : forall n sq a b, Forall (fun t => Cconj (snd t) = snd t /\ Forall (fun p => p < n)%nat (fst t)) sq ->
  inner n a (sq_operator sq b) = inner n (sq_transposed sq a) b.
Proof.
  intros n sq a b H. rewrite (inner_conj n (sq_transposed sq a) b).
  assert (E1 : sq_operator sq b = fermi_act (map as_fterm sq) b) by (apply FunctionalExtensionality.functional_extensionality; intros I; unfold sq_operator, fermi_act; rewrite Csum_map; reflexivity).
  assert (E2 : sq_transposed sq a = fermi_act (map (fun t => dagger (as_fterm t)) sq) a) by (apply FunctionalExtensionality.functional_extensionality; intros I; unfold sq_transposed, fermi_act; rewrite Csum_map; reflexivity).
  rewrite E1, E2, !inner_fermi, !Csum_map, Csum_conj. apply Csum_ext. intros t Ht. destruct (proj1 (Forall_forall _ _) H t Ht) as [HR HN].
  unfold dagger, as_fterm, fcoef, fcre, fann, sq_creators, sq_annihilators. cbn [fst snd]. rewrite Cconj_mul, HR. f_equal. rewrite <- inner_conj. apply inner_ladder.
  - rewrite <- (firstn_skipn (length (fst t) / 2) (fst t)) in HN. apply Forall_app in HN. apply HN.
  - rewrite <- (firstn_skipn (length (fst t) / 2) (fst t)) in HN. apply Forall_app in HN. apply HN.
Qed.

(** organizer -> circuits -> organizer is the identity; each circuit multiplies its letters in
    the opposite order *)
Definition IPauliWord (w : list (string * nat)) : Prop := Forall (fun l => In (fst l) ["X"; "Y"; "Z"; "I"]) w.
Theorem C55_organizer_circuit : forall org, Forall (fun t => IPauliWord (snd t)) org ->
  exists o, organizer_to_circuit org = Ok o /\ circuit_to_organizer o = org /\
  forall psi I, op_act o psi I = org_act (map (fun t => (fst t, rev (snd t))) org) psi I.
Proof. intros org H. exact (org_circuit org H). Qed.
(** so the circuits represent the organizer when no word has two letters on a qubit *)
Theorem C55_organizer_circuit_distinct : forall org, Forall (fun t => IPauliWord (snd t) /\ NoDup (map snd (snd t))) org ->
  exists o, organizer_to_circuit org = Ok o /\ forall psi I, op_act o psi I = org_act org psi I.
Proof. intros org H. exact (org_circuit_distinct org H). Qed.
Example C55_nonvacuous : exists o, get_single_term_jw_organizer ([2; 0]%nat, C1) = Ok o /\ length o = 4%nat /\ map snd o = [[("Y", 0); ("Z", 1); ("X", 2)]; [("X", 0); ("Z", 1); ("X", 2)]; [("Y", 0); ("Z", 1); ("Y", 2)]; [("X", 0); ("Z", 1); ("Y", 2)]]%nat.
Proof. eexists. split; [cbn; reflexivity|]. split; reflexivity. Qed.

Print Assumptions C42_pauli_condense_partial. Print Assumptions C42_pauli_condense_refuted. Print Assumptions C42_condense_identity_rejected.
Print Assumptions C42_combine_like_terms. Print Assumptions C42_join_organizers. Print Assumptions C42_join_commutator.
Print Assumptions C54_normal_ordered_accepted. Print Assumptions C54_accepted_iff_partial. Print Assumptions C54_input_check_refuted.
Print Assumptions C55_single_term. Print Assumptions C55_jw_organizer. Print Assumptions C55_ucc_organizer. Print Assumptions C55_transposed_is_adjoint.
Print Assumptions C55_organizer_circuit. Print Assumptions C55_organizer_circuit_distinct.
