(** Property theorems C28-C31 (second-quantised operators, Jordan-Wigner). *)
From Coq Require Import Reals String List Arith Lia Bool Lra Permutation Sorted.
From Verif Require Import CBase Result Bits Spec OpSpec SQSpec GateModel ComputerModel SafeProofs CircuitModel PauliProofs OperatorModel OperatorProofs OrderProofs PropOperator SQModel SQPhase SQProofs PauliIndep JWProofs.
Import ListNotations.
Local Open Scope C_scope.

(** ---- a legal sort exists (all theorems below quantify over every legal sort) ---- *)
Fixpoint ins (lt : nat -> nat -> bool) (x : nat) (l : list nat) : list nat :=
  match l with [] => [x] | y :: r => if lt y x then y :: ins lt x r else x :: l end.
Definition isort : sorter := fun lt l => fold_right (ins lt) [] l.
Lemma ins_perm lt x l : Permutation (ins lt x l) (x :: l).
Proof. induction l as [|y l IH]; cbn; [reflexivity|]. destruct (lt y x); [rewrite IH; apply perm_swap|reflexivity]. Qed.
Lemma weak_le_trans lt a b c : weak_order lt -> lt b a = false -> lt c b = false -> lt c a = false.
Proof.
  intros (_ & HT & HI) H1 H2. destruct (lt c a) eqn:E; [|reflexivity]. destruct (lt b c) eqn:E1; [rewrite (HT _ _ _ E1 E) in H1; discriminate|].
  destruct (lt a b) eqn:E2; [rewrite (HT _ _ _ E E2) in H2; discriminate|]. destruct (HI a b c) as [_ HX]; auto. congruence.
Qed.
Lemma isort_legal : legal_sort isort.
Proof.
  intros lt l HW. assert (HS : Permutation (isort lt l) l /\ StronglySorted (fun a b => lt b a = false) (isort lt l)).
  { induction l as [|x l [IHP IHS]]; [split; constructor|]. cbn. split; [rewrite ins_perm, IHP; reflexivity|]. fold (isort lt l). clear IHP.
    induction (isort lt l) as [|y r IH]; cbn; [constructor; constructor|]. inversion IHS; subst. destruct (lt y x) eqn:E.
    - constructor; [auto|]. apply Forall_forall. intros z Hz. apply (Permutation_in _ (ins_perm lt x r)) in Hz. destruct Hz as [<-|Hz].
      + destruct HW as (HR & HT & _). destruct (lt x y) eqn:E2; [|reflexivity]. pose proof (HT _ _ _ E E2). rewrite HR in H. discriminate.
      + rewrite Forall_forall in H2. auto.
    - constructor; [exact IHS|]. constructor; [exact E|]. apply Forall_forall. intros z Hz. rewrite Forall_forall in H2.
      eapply weak_le_trans; [exact HW|exact E|]. auto. }
  destruct HS as [HP HS]. split; [exact HP|]. intros i j d Hij. rewrite <- (Permutation_length HP) in Hij. clear HP.
  revert i j Hij. induction HS as [|a r HS IH HF]; intros i j Hij; [cbn in Hij; lia|]. destruct j as [|j]; [lia|]. destruct i as [|i]; cbn [nth].
  - rewrite Forall_forall in HF. apply HF, nth_In. cbn in Hij; lia.
  - apply IH. cbn in Hij; lia.
Qed.

(** ---- C28 ---- *)
(** distinct orbitals: both lists end up in descending order and the coefficient is multiplied
    by the signs of the two sorting permutations (parity of the number of inversions) *)
Theorem C28_canonical_order_sign : forall srt, legal_sort srt -> forall c cre ann, NoDup cre -> NoDup ann ->
  exists cre' ann', canonical_order_single_term srt ((c, cre), ann) =
      Ok ((c * sgn (Nat.odd (inversions cre)) * sgn (Nat.odd (inversions ann)), cre'), ann') /\
    Permutation cre' cre /\ Permutation ann' ann /\ descending cre' /\ descending ann'.
Proof.
  intros srt HS c cre ann HC HA. destruct (sign_inversions srt cre HS HC) as (cre' & E1 & HP1 & HD1). destruct (sign_inversions srt ann HS HA) as (ann' & E2 & HP2 & HD2).
  exists cre', ann'. unfold canonical_order_single_term, fcre, fann, fcoef; cbn [fst snd]. rewrite E1. cbn [bind]. rewrite E2. cbn [bind fst snd]. auto.
Qed.
Print Assumptions C28_canonical_order_sign.
(** any orbitals, also repeated ones: canonical_order never fails, sorts both lists of every
    term and leaves the fermionic operator as it was *)
Theorem C28_canonical_order_preserves_operator : forall srt, legal_sort srt -> forall o,
  exists o', sq_canonical_order srt o = Ok o' /\ Forall (fun t => descending (fcre t) /\ descending (fann t)) o' /\
    Forall2 (fun t t' => Permutation (fcre t') (fcre t) /\ Permutation (fann t') (fann t) /\ forall psi, fermi_act [t] psi == fermi_act [t'] psi) o o' /\
    forall psi, fermi_act o psi == fermi_act o' psi.
Proof.
  intros srt HS o. destruct (sq_canonical_spec srt o HS) as (o' & E & HC & HF & HW). exists o'. split; [exact E|]. split; [exact HC|]. split; [|exact HW].
  clear - HF. induction HF as [|t t' l l' (H1 & H2 & _ & H3) HF IH]; constructor; [|exact IH]. split; [exact H1|]. split; [exact H2|].
  intros psi I. rewrite !fermi_cons, (H3 psi I). reflexivity.
Qed.
Print Assumptions C28_canonical_order_preserves_operator.
Example C28_nonvacuous : legal_sort isort /\
  canonical_order_single_term isort ((C1, [0; 3; 1]%nat), [2; 5]%nat) = Ok ((C1 * C1 * - C1, [3; 1; 0]%nat), [5; 2]%nat) /\
  Nat.odd (inversions [0; 3; 1]%nat) = false /\ Nat.odd (inversions [2; 5]%nat) = true.
Proof. split; [exact isort_legal|]. split; [reflexivity|]. split; reflexivity. Qed.

(** ---- C29 ---- *)
Theorem C29_simplify_merges : forall srt, legal_sort srt -> forall o,
  exists kept dropped, sq_simplify srt o = Ok kept /\
    Forall (fun t => descending (fcre t) /\ descending (fann t)) kept /\
    NoDup (map fkey (kept ++ dropped)) /\
    Forall (fun t => 1e-12 < Cabs (fcoef t))%R kept /\ Forall (fun t => Cabs (fcoef t) <= 1e-12)%R dropped /\
    (forall t, In t (kept ++ dropped) -> exists t0, In t0 o /\ Permutation (fcre t) (fcre t0) /\ Permutation (fann t) (fann t0)) /\
    forall psi, fermi_act o psi == sadd (fermi_act kept psi) (fermi_act dropped psi).
Proof.
  intros srt HS o. destruct (sq_simplify_spec srt o HS) as (k & d & E & HC & H). exists k, d. split; [exact E|]. split; [|exact H].
  apply Forall_app in HC. apply HC.
Qed.
Print Assumptions C29_simplify_merges.
Example C29_nonvacuous : exists o kept, sq_simplify isort o = Ok kept /\ length o = 3%nat /\ length kept = 1%nat.
Proof.
  exists [((C1, [0; 1]%nat), []); ((C1, [1; 0]%nat), []); ((- Ci, [1; 0]%nat), [])].
  eexists. split; [unfold sq_simplify; cbn -[Rltb Cabs]; rewrite Rltb_true; [reflexivity|]|split; reflexivity].
  replace (C1 * - C1 * C1 + C1 * C1 * C1 + - Ci * C1 * C1) with (- Ci) by ring. rewrite Cabs_neg. unfold Cabs, Cnorm2; cbn.
  replace (0 * 0 + 1 * 1)%R with 1%R by ring. rewrite sqrt_1. lra.
Qed.

(** ---- C30 ---- *)
(** no repeated creation index and no repeated annihilation index; at most 39 ladder operators *)
Definition PlainTerm (t : fterm) : Prop := NoDup (fcre t) /\ NoDup (fann t) /\ (length (fcre t) + length (fann t) <= 39)%nat.
Lemma plain_ok qe srt o : legal_sort srt -> Forall PlainTerm o -> forall kept, sq_simplify srt o = Ok kept -> Forall (fun t => term_ok qe (fcre t) (fann t)) kept.
Proof.
  intros HS HO kept E. destruct (sq_simplify_spec srt o HS) as (k & d & E' & _ & _ & _ & _ & HI & _). assert (k = kept) by congruence. subst k.
  apply Forall_forall. intros t Ht. destruct (HI t (in_or_app _ _ _ (or_introl Ht))) as (t0 & H0 & H1 & H2). rewrite Forall_forall in HO. destruct (HO t0 H0) as (A & B & D).
  apply distinct_term_ok; [rewrite (Permutation_length H1), (Permutation_length H2); exact D|eapply Permutation_NoDup; [symmetry; exact H1|exact A]|eapply Permutation_NoDup; [symmetry; exact H2|exact B]].
Qed.
(** the qubit operator acts on every state as the fermionic operator, up to terms whose
    coefficients are at most 1e-12; it consists of different Pauli strings on qubits
    below any bound of the orbital indices.  (Missing: terms of 40 or more operators.) *)
Theorem C30_jordan_wigner_faithful_partial : forall srt, legal_sort srt -> forall o, Forall PlainTerm o ->
  exists kept q fdropped dropped, jw_transform srt false o = Ok (kept, q) /\
    fnegligible fdropped /\ negligible dropped /\
    Terms Canonical q /\ NoDup (map snd q) /\
    (forall n, Forall (fun t => Forall (fun p => p < n)%nat (fcre t) /\ Forall (fun p => p < n)%nat (fann t)) o ->
       Forall (fun t => Forall (fun g => gtarget g < n)%nat (snd t)) q) /\
    (forall psi, fermi_act o psi == sadd (op_act q psi) (sadd (op_act dropped psi) (fermi_act fdropped psi))) /\
    (forall psi, fermi_act o psi == sadd (fermi_act kept psi) (fermi_act fdropped psi)).
Proof.
  intros srt HS o HO. destruct (jw_transform_spec srt false o HS (plain_ok false srt o HS HO)) as (k & fd & q & d & E & _ & HF & HW1 & HC & HN & _ & HD & HR & HW2).
  exists k, q, fd, d. split; [exact E|]. split; [exact HF|]. split; [exact HD|]. split; [apply terms_canonical, HC|]. split; [exact HN|]. split; [exact HR|]. split; [|exact HW1].
  intros psi I. rewrite (HW1 psi I). unfold sadd. rewrite <- (psum_fermi k psi I). rewrite (HW2 psi I). unfold sadd. ring.
Qed.
Print Assumptions C30_jordan_wigner_faithful_partial.
(** qubit_excitation=True: every a, a^dagger of the simplified operator is replaced by the
    sign-free lowering and raising operators *)
Theorem C30_qubit_excitations_partial : forall srt, legal_sort srt -> forall o, Forall PlainTerm o ->
  exists kept q dropped, jw_transform srt true o = Ok (kept, q) /\ sq_simplify srt o = Ok kept /\ negligible dropped /\
    Terms Canonical q /\ NoDup (map snd q) /\
    forall psi, qexc_act kept psi == sadd (op_act q psi) (op_act dropped psi).
Proof.
  intros srt HS o HO. destruct (jw_transform_spec srt true o HS (plain_ok true srt o HS HO)) as (k & fd & q & d & E & EK & _ & _ & HC & HN & _ & HD & _ & HW2).
  exists k, q, d. split; [exact E|]. split; [exact EK|]. split; [exact HD|]. split; [apply terms_canonical, HC|]. split; [exact HN|].
  intros psi I. rewrite <- (psum_qexc k psi I). exact (HW2 psi I).
Qed.
Print Assumptions C30_qubit_excitations_partial.
(** the specification itself: the canonical anticommutation relations *)
Theorem C30_spec_anticommutes : forall p q psi I,
  create p (create q psi) I = - create q (create p psi) I /\ annihilate p (annihilate q psi) I = - annihilate q (annihilate p psi) I /\
  create p (annihilate q psi) I + annihilate q (create p psi) I = (if Nat.eqb p q then psi I else C0).
Proof.
  intros p q psi I. split; [|split; [|apply lad_anti_mixed]].
  - rewrite (create_lad p _ I), (lad_ext true p _ _ (create_lad q psi) I), (create_lad q _ I), (lad_ext true q _ _ (create_lad p psi) I). apply lad_anti.
  - rewrite (annihilate_lad p _ I), (lad_ext false p _ _ (annihilate_lad q psi) I), (annihilate_lad q _ I), (lad_ext false q _ _ (annihilate_lad p psi) I). apply lad_anti.
Qed.
Print Assumptions C30_spec_anticommutes.
Example C30_nonvacuous : Forall PlainTerm [((Ci, [2; 0]%nat), [1; 3]%nat); ((C1, []), []); ((C1, [5]%nat), [5]%nat)] /\
  ladder_act [2; 0]%nat [1; 3]%nat (ket 10) 5%nat = C1.
Proof.
  split; [|unfold ladder_act, create, annihilate, ket; cbn; csolve]. apply Forall_forall. intros t [<-|[<-|[<-|[]]]]; (split; [apply nodupb_spec; reflexivity|split; [apply nodupb_spec; reflexivity|cbn; lia]]).
Qed.

(** ---- C31 ---- *)
(** one index is repeated (twice), it is the smallest of the last non-empty list *)
Definition EndsWithPair (l : list nat) : Prop := exists m q, Permutation l (m ++ [q; q]) /\ NoDup m /\ forall x, In x m -> (q < x)%nat.
Definition VanishesAtEnd (t : fterm) : Prop := (length (fcre t) + length (fann t) <= 39)%nat /\
  ((NoDup (fcre t) /\ EndsWithPair (fann t)) \/ (EndsWithPair (fcre t) /\ fann t = [])).
Lemma prefix_of_snoc {A} (w u v : list A) (b x : A) : (w ++ [b])%list = (u ++ x :: v)%list -> exists z, w = (u ++ z)%list.
Proof.
  revert u. induction w as [|y w IH]; intros u E.
  - destruct u as [|z u]; [exists []; reflexivity|]. cbn in E. injection E as _ E. destruct u; discriminate.
  - destruct u as [|z u]; [exists (y :: w); reflexivity|]. cbn in E. injection E as -> E. destruct (IH u E) as (t & ->). exists t. reflexivity.
Qed.
Lemma end_ok qe t : VanishesAtEnd t -> forall t', Permutation (fcre t') (fcre t) -> Permutation (fann t') (fann t) -> descending (fcre t') -> descending (fann t') ->
  term_ok qe (fcre t') (fann t') /\ ~ nonzero qe (term_word (fcre t') (fann t')) /\ (2 <= length (term_word (fcre t') (fann t')))%nat.
Proof.
  intros [HL HV] t' H1 H2 D1 D2. assert (HL' : (length (fcre t') + length (fann t') <= 39)%nat) by (rewrite (Permutation_length H1), (Permutation_length H2); exact HL).
  assert (HX : forall w s, term_word (fcre t') (fann t') = (w ++ [s; s])%list -> nonzero qe (w ++ [s]) ->
     term_ok qe (fcre t') (fann t') /\ ~ nonzero qe (term_word (fcre t') (fann t')) /\ (2 <= length (term_word (fcre t') (fann t')))%nat).
  { intros w s E HN. split; [|split].
    - split; [exact HL'|]. intros u x v EU _. rewrite E in EU. replace (w ++ [s; s])%list with ((w ++ [s]) ++ [s])%list in EU by (rewrite <- app_assoc; reflexivity).
      destruct (prefix_of_snoc _ _ _ _ _ EU) as (z & Ez). rewrite Ez in HN. exact (nonzero_prefix qe u z HN).
    - rewrite E. destruct s as [d p]. apply repeat_zero.
    - rewrite E, app_length. cbn. lia. }
  destruct HV as [[HC (m & q & HP & HN & Hq)]|[(m & q & HP & HN & Hq) HA]].
  - destruct (end_pair (fann t') m q D2 (Permutation_trans H2 HP) Hq HN) as (m' & E & HN').
    apply (HX (map (pair true) (fcre t') ++ map (pair false) m')%list (false, q)).
    + unfold term_word. rewrite E, map_app, app_assoc. reflexivity.
    + pose proof (word_nonzero qe (fcre t') (m' ++ [q]) (Permutation_NoDup (Permutation_sym H1) HC) HN') as HZ. unfold term_word in HZ.
      rewrite map_app, app_assoc in HZ. exact HZ.
  - rewrite HA in H2. symmetry in H2. apply Permutation_nil in H2. destruct (end_pair (fcre t') m q D1 (Permutation_trans H1 HP) Hq HN) as (m' & E & HN').
    apply (HX (map (pair true) m')%list (true, q)).
    + unfold term_word. rewrite E, H2, map_app. cbn [map]. rewrite app_nil_r. reflexivity.
    + pose proof (word_nonzero qe (m' ++ [q]) [] HN' (NoDup_nil _)) as HZ. unfold term_word in HZ. rewrite map_app in HZ. cbn [map] in HZ. rewrite app_nil_r in HZ. exact HZ.
Qed.
(** such a term alone is transformed to the empty operator *)
Theorem C31_vanishing_at_end_partial : forall srt, legal_sort srt -> forall t, VanishesAtEnd t -> forall qe,
  exists kept, jw_transform srt qe [t] = Ok (kept, []) /\ forall psi, fermi_act [t] psi == szero.
Proof.
  intros srt HS t HV qe. destruct (sq_simplify_spec srt [t] HS) as (k & d & E & HC & HN & _ & _ & HI & HW).
  assert (HT : forall t', In t' (k ++ d) -> term_ok qe (fcre t') (fann t') /\ ~ nonzero qe (term_word (fcre t') (fann t')) /\ (2 <= length (term_word (fcre t') (fann t')))%nat).
  { intros t' Ht'. destruct (HI t' Ht') as (t0 & [<-|[]] & H1 & H2). rewrite Forall_forall in HC. destruct (HC t' Ht') as [D1 D2]. apply (end_ok qe t HV); assumption. }
  exists k. split.
  - unfold jw_transform. rewrite E. cbn [bind].
    assert (HF : foreach k (jw_term qe) [] = Ok []).
    { assert (HT' : forall t', In t' k -> term_ok qe (fcre t') (fann t') /\ ~ nonzero qe (term_word (fcre t') (fann t')) /\ (2 <= length (term_word (fcre t') (fann t')))%nat)
        by (intros; apply HT, in_or_app; left; assumption). clear - HT'.
      induction k as [|x k IH]; [reflexivity|]. cbn [foreach]. destruct (HT' x (or_introl eq_refl)) as (H1 & H2 & H3).
      assert (EX : jw_term qe x [] = Ok []).
      { unfold jw_term. destruct (andb _ _) eqn:E0.
        - exfalso. apply andb_true_iff in E0. destruct E0 as [E1 E2]. apply Nat.eqb_eq in E1, E2. unfold term_word in H3. rewrite app_length, !map_length in H3. lia.
        - destruct (jw_word_spec qe (fcre x) (fann x) H1) as (h & EH & HInv). pose proof (jw_zero_empty _ _ _ HInv H3 H2) as ->.
          destruct (jw_helper [] (fcre x) true qe) as [h1|e]; cbn [bind] in *; [|discriminate]. rewrite EH. cbn [bind]. reflexivity. }
      rewrite EX. cbn [bind]. apply IH. intros; apply HT'; right; assumption. }
    rewrite HF. reflexivity.
  - destruct (single_term_spec srt t HS) as (t' & _ & [D1 D2] & P1 & P2 & _ & HW').
    destruct (end_ok false t HV t' P1 P2 D1 D2) as (_ & HZ & _). intros psi I. rewrite fermi_cons, (HW' psi I). unfold szero.
    assert (EZ : word (fcre t') (fann t') psi I = C0).
    { destruct (Ceq_dec (word (fcre t') (fann t') psi I) C0) as [e|n]; [exact e|]. exfalso. apply HZ. exists psi, I. unfold term_word. rewrite lword_cre, lword_ann. exact n. }
    rewrite EZ. change (fermi_act [] psi I) with C0. ring.
Qed.
Print Assumptions C31_vanishing_at_end_partial.
(** but a^_p a^_p a_q, which is zero, is transformed to (plus or minus) a_q: the empty
    product is restarted by the next ladder operator *)
Lemma perm_pp {p : nat} {l} : Permutation l [p; p] -> l = [p; p].
Proof. intros H. destruct (Permutation_length_2_inv (Permutation_sym H)); assumption. Qed.
Lemma perm_p {p : nat} {l} : Permutation l [p] -> l = [p].
Proof. intros H. apply Permutation_length_1_inv. symmetry; exact H. Qed.
Theorem C31_vanishing_product_refuted : forall srt, legal_sort srt -> forall p q,
  exists kept o s, jw_transform srt false [((C1, [p; p]), [q])] = Ok (kept, o) /\
    (forall psi, fermi_act [((C1, [p; p]), [q])] psi == szero) /\
    (s = C1 \/ s = - C1) /\ forall psi, op_act o psi == sscale s (annihilate q psi).
Proof.
  intros srt HS p q. set (t := ((C1, [p; p]), [q]) : fterm).
  destruct (canonicalize_spec srt [p; p] HS) as (c' & b1 & E1 & P1 & _). destruct (canonicalize_spec srt [q] HS) as (a' & b2 & E2 & P2 & _).
  apply perm_pp in P1. apply perm_p in P2. subst c' a'. set (s := C1 * sgn b1 * sgn b2).
  assert (Hs : s = C1 \/ s = - C1) by (unfold s; destruct b1, b2; unfold sgn; [left|right|right|left]; ring).
  assert (EK : sq_simplify srt [t] = Ok [((s, [p; p]), [q])]).
  { unfold sq_simplify, sq_canonical_order, t. cbn [mapM]. unfold canonical_order_single_term, fcre, fann, fcoef; cbn [fst snd]. rewrite E1. cbn [bind]. rewrite E2. cbn [bind fst snd fold_left sq_accumulate filter].
    fold s. rewrite Rltb_true; [reflexivity|]. destruct Hs as [-> | ->]; rewrite ?Cabs_neg, Cabs_C1; lra. }
  assert (EH : jw_helper [] [p; p] true false = Ok []).
  { destruct (jw_helper_spec false true [p; p] [] []) as (h & EH & HInv).
    - apply jw_inv_nil.
    - cbn; lia.
    - intros u x v E Hu. apply (nonzero_prefix false u []). rewrite app_nil_r. cbn [map app] in E. destruct u as [|y u]; [congruence|]. injection E as <- E. destruct u as [|z u].
      + pose proof (word_nonzero false [p] []) as HZ. apply HZ; [constructor; [intros []|constructor]|constructor].
      + injection E as _ E. destruct u; discriminate.
    - rewrite EH. f_equal. apply (jw_zero_empty _ _ _ HInv); [cbn; lia|]. apply (repeat_zero false []). }
  destruct (jw_ladder_spec false false q) as (o1 & EL & HP & HD & _ & _ & HW).
  set (o2 := op_mult_coeffs o1 s). assert (HP2 : pauli_op o2) by (unfold o2, op_mult_coeffs; apply Forall_map; exact HP).
  assert (HD2 : dyop 1 o2).
  { unfold o2, op_mult_coeffs. apply Forall_map. eapply Forall_impl; [|exact HD]. intros x Hx. cbn [fst].
    assert (Ds : dy 0 s) by (destruct Hs as [-> | ->]; [apply dy_C1|apply dy_neg, dy_C1]). exact (dy_mul 1 0 _ _ Hx Ds). }
  destruct (simplify_exact 1 o2 ltac:(lia) HP2 HD2) as (o & EO & HC & _ & _ & HWO).
  exists [((s, [p; p]), [q])], o, s. split; [|split; [|split; [exact Hs|]]].
  - unfold jw_transform. match type of EK with _ = ?R => match goal with |- context [sq_simplify srt ?L] => change (sq_simplify srt L = R) in EK end end. rewrite EK. cbn [bind foreach]. unfold jw_term, fcre, fann, fcoef; cbn [fst snd length Nat.eqb andb]. rewrite EH. cbn [bind].
    unfold jw_helper. cbn [foreach]. rewrite EL. cbn [bind length Nat.eqb op_add_op app]. fold o2. unfold op_add_op; cbn [app]. fold o2. rewrite EO. reflexivity.
  - intros psi I. rewrite fermi_cons. change (fermi_act [] psi I) with C0. unfold t, fcoef, fcre, fann, word; cbn [fst snd].
    assert (HZ : lads true [p; p] (lads false [q] psi) I = C0) by exact (plad_same false true p _ I). rewrite HZ. unfold szero. ring.
  - intros psi I. rewrite <- (wop_op o psi (canonical_distinct o HC) I), <- (HWO psi I). unfold o2. rewrite (wop_mult o1 s psi I). unfold sscale. rewrite (HW psi I).
    rewrite (annihilate_lad q psi I). reflexivity.
Qed.
Print Assumptions C31_vanishing_product_refuted.
Example C31_nonvacuous : VanishesAtEnd ((C1, [4; 2]%nat), [1; 3; 1]%nat) /\ annihilate 3 (ket 8) 0%nat = C1.
Proof.
  split; [|unfold annihilate, ket; cbn; csolve]. split; [cbn; lia|]. left. split; [apply nodupb_spec; reflexivity|].
  exists [3%nat], 1%nat. split; [exact (perm_swap 3 1 [1])%nat|]. split; [repeat constructor; intros []|]. intros x [<-|[]]; lia.
Qed.
