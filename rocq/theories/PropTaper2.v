(** Property theorems C58: the tapering unitary and taper_operator. *)
From Coq Require Import Reals String List Arith Lia Bool Lra Permutation Sorted ZArith.
From Verif Require Import CBase Result Bits Spec GateModel OpSpec ComputerModel SafeProofs GateProofs LibProofs CircuitModel PauliProofs OperatorModel OperatorProofs PauliIndep OrderProofs PropOperator PropAccess SQModel PropSQ
  TaperModel TaperSpec TaperAlg TaperKernel TaperGS TaperAbel TaperPauli TaperSym TaperFind TaperUnit TaperConj TaperSector TaperOp PropTaper.
Import ListNotations.
Local Open Scope nat_scope.

Lemma build_pairs gens : forall sigma us, length sigma = length gens ->
  Forall2 (fun gq u => exists x, make_gate "X" (snd gq) (snd gq) 0 = Ok x /\ u = uop (fst gq) x) (combine gens sigma) us ->
  exists gx, map fst gx = gens /\ targets gx = sigma /\ us = ops_of gx /\ Forall (fun p => pauli_gate (snd p) /\ glabel (snd p) = "X"%string) gx.
Proof.
  induction gens as [|g gens IH]; intros [|q sigma] us HL HF; try discriminate; cbn [combine] in HF; inversion HF; subst.
  - exists []. repeat split; constructor.
  - destruct H1 as (x & Ex & ->). cbn [fst snd] in *. destruct (IH sigma l') as (gx & E1 & E2 & E3 & E4); [cbn in HL; lia|assumption|].
    destruct (pauli_make "X" q eq_refl) as (x' & Ex' & HP & HLx & HT & _). assert (x' = x) by congruence. subst x'.
    exists ((g, x) :: gx). cbn [map fst targets ops_of snd]. rewrite E1. unfold targets in E2. rewrite E2, HT, E3. repeat split; []. constructor; [split; assumption|exact E4].
Qed.
Lemma paired_nth gx d : (forall i, i < length gx -> factor (fst (nth i gx d)) (snd (nth i gx d))) ->
  (forall i j, i < length gx -> j < length gx -> i <> j -> zb (fst (nth i gx d)) (gtarget (snd (nth j gx d))) = false /\ Commute (fst (nth i gx d)) (fst (nth j gx d))) -> paired gx.
Proof.
  induction gx as [|p r IH]; intros H1 H2; [exact I|]. cbn [paired]. split; [apply (H1 0); cbn; lia|]. split.
  - intros p' Hp'. apply (In_nth _ _ d) in Hp'. destruct Hp' as (i & Hi & <-). destruct (H2 0 (S i)) as [A B]; cbn [length]; try lia. destruct (H2 (S i) 0) as [A' B']; cbn [length]; try lia. cbn [nth] in *. auto.
  - apply IH; [intros i Hi; apply (H1 (S i)); cbn; lia|]. intros i j Hi Hj N. apply (H2 (S i) (S j)); cbn [length]; lia.
Qed.
Lemma sorted_nth l : (forall i j, i < j < length l -> nth i l 0 > nth j l 0) -> StronglySorted gt l.
Proof.
  induction l as [|a l IH]; intros H; constructor.
  - apply IH. intros i j Hij. apply (H (S i) (S j)). cbn; lia.
  - apply Forall_forall. intros x Hx. apply (In_nth _ _ 0) in Hx. destruct Hx as (i & Hi & <-). apply (H 0 (S i)). cbn; lia.
Qed.
Lemma map_nth_in {A B} (f : A -> B) l i a b : i < length l -> nth i (map f l) b = f (nth i l a).
Proof. intros H. rewrite (nth_indep _ b (f a)) by (rewrite map_length; exact H). apply map_nth. Qed.

Definition HasYZ (g : list gate) : Prop := exists a, In a g /\ (glabel a = "Y" \/ glabel a = "Z")%string.
Lemma find_pairs argsort h b s : legal_argsort argsort -> distinct_op h -> find_Z2_symmetries argsort h b = Ok s -> (forall g, In g (sy_generators s) -> HasYZ g) -> length (sy_generators s) <= 79 ->
  exists gx r, map fst gx = sy_generators s /\ targets gx = sy_sigma s /\ paired gx /\ StronglySorted gt (sy_sigma s) /\ good r (sy_unitary s) [] /\ (1e-12 < r)%R /\
    (forall psi, op_act (sy_unitary s) psi == compose (ops_of gx) psi) /\ (forall p a, In p gx -> In a (snd p :: fst p) -> gtarget a < op_num_qubits h).
Proof.
  intros HA HD E HYZ H79. destruct (find_spec argsort h b HA HD (terms_below h)) as (gens & sigma & us & HF & HU & E').
  destruct (build_pairs gens sigma us (sf_len _ _ _ _ HF) HU) as (gx & E1 & E2 & E3 & E4). subst us.
  destruct gx as [|p gx]; [cbn [ops_of map] in E'; rewrite E' in E; discriminate|]. cbn [ops_of map] in E'. fold (ops_of gx) in E'.
  assert (EG : sy_generators s = gens /\ sy_sigma s = sigma /\ foreach (ops_of gx) (fun op acc => operator_product acc op true true) (uop (fst p) (snd p)) = Ok (sy_unitary s)).
  { rewrite E' in E. destruct (foreach (ops_of gx) (fun op acc => operator_product acc op true true) (uop (fst p) (snd p))) as [v|e]; cbn [bind] in E; [|discriminate]. injection E as <-. auto. }
  destruct EG as (Eg & Es & Ev). rewrite Eg in *. rewrite Es. clear E E' Eg Es.
  set (L := p :: gx) in *. set (d := ([], gX 0) : list gate * gate). assert (LL : length gens = length L) by (rewrite <- E1; apply map_length).
  assert (N1 : forall i, i < length L -> fst (nth i L d) = nth i gens []) by (intros i Hi; rewrite <- E1; symmetry; apply map_nth_in, Hi).
  assert (N2 : forall i, i < length L -> gtarget (snd (nth i L d)) = nth i sigma 0) by (intros i Hi; rewrite <- E2; symmetry; unfold targets; apply (map_nth_in (fun p => gtarget (snd p))), Hi).
  assert (HP : forall i, i < length L -> nth i sigma 0 < op_num_qubits h /\ zb (nth i gens []) (nth i sigma 0) = true /\ forall j, j < length gens -> j <> i -> zb (nth j gens []) (nth i sigma 0) = false).
  { intros i Hi. apply (sf_pair _ _ _ _ HF i); [lia|]. apply HYZ, nth_In. lia. }
  assert (HC : forall i, i < length L -> canonical_pauli (nth i gens [])). { intros i Hi. pose proof (sf_canon _ _ _ _ HF) as HC. rewrite Forall_forall in HC. apply HC, nth_In. lia. }
  assert (HB : forall i, i < length L -> below (op_num_qubits h) (nth i gens [])). { intros i Hi. pose proof (sf_below _ _ _ _ HF) as HB. rewrite Forall_forall in HB. apply HB, nth_In. lia. }
  assert (HX : forall i, i < length L -> pauli_gate (snd (nth i L d)) /\ glabel (snd (nth i L d)) = "X"%string). { intros i Hi. rewrite Forall_forall in E4. apply E4, nth_In, Hi. }
  assert (HPa : paired L).
  { apply (paired_nth L d).
    - intros i Hi. destruct (HX i Hi). constructor; [rewrite N1 by exact Hi; apply HC, Hi|assumption|assumption|rewrite N1, N2 by exact Hi; apply HP, Hi].
    - intros i j Hi Hj N. rewrite !N1, N2 by assumption. split; [apply (HP j Hj); lia|].
      apply commute_iff; [apply canonical_str, HC, Hi|apply HC, Hj|]. rewrite (anti_str_sf (op_num_qubits h)); [|apply canonical_str, HC, Hi|apply canonical_str, HC, Hj|apply HB, Hj].
      apply (sf_mutual _ _ _ _ HF i j); lia. }
  assert (HS : StronglySorted gt sigma).
  { apply sorted_nth. intros i j Hij. rewrite (sf_len _ _ _ _ HF) in Hij. pose proof (sf_desc _ _ _ _ HF i j Hij) as Hle.
    destruct (Nat.eq_dec (nth j sigma 0) (nth i sigma 0)) as [EE|NE]; [|lia]. exfalso. destruct (HP j) as (_ & Z1 & _); [lia|]. destruct (HP i) as (_ & _ & Z2); [lia|]. rewrite EE, (Z2 j) in Z1 by lia. discriminate. }
  destruct (unitary_exact p gx (paired_chain _ HPa)) as (v & Ev' & HG & HAv); [apply rho_bound; unfold L in LL; cbn [length] in LL; lia|].
  assert (v = sy_unitary s) by congruence. subst v. exists L, (rho ^ S (length gx))%R. do 5 (split; [assumption|]). split; [apply rho_bound; unfold L in LL; cbn [length] in LL; lia|]. split; [exact HAv|].
  intros p' a Hp' Ha. apply (In_nth _ _ d) in Hp'. destruct Hp' as (i & Hi & <-). destruct Ha as [<-|Ha]; [rewrite N2 by exact Hi; apply HP, Hi|]. rewrite N1 in Ha by exact Hi. apply (HB i Hi), Ha.
Qed.

(** ---- C58: the unitary ---- *)
(** When every generator contains a Y or a Z and there are at most 79 of them: V is its own inverse,
    preserves inner products on every register that holds the Hamiltonian, and turns the i-th
    generator into sigma_x on the i-th paired qubit; the paired qubits are strictly descending.
    Missing: generators made of X only (refuted below); more than 79 generators (the product would have
    2^80 terms, each with a coefficient below the 1e-12 cutoff of simplify). *)
Theorem C58_unitary_partial : forall argsort h from_least s, legal_argsort argsort -> Terms PauliString h -> find_Z2_symmetries argsort h from_least = Ok s ->
  (forall g, In g (sy_generators s) -> HasYZ g) -> length (sy_generators s) <= 79 ->
  let V := op_act (sy_unitary s) in
  (forall psi, V (V psi) == psi) /\
  (forall n a b, op_num_qubits h <= n -> inner n (V a) (V b) = inner n a b) /\
  (forall i x psi, i < length (sy_generators s) -> make_gate "X" (nth i (sy_sigma s) 0) (nth i (sy_sigma s) 0) 0 = Ok x -> V (circ_act (nth i (sy_generators s) []) psi) == gate_act x (V psi)) /\
  StronglySorted gt (sy_sigma s).
Proof.
  intros argsort h b s HA HT E HYZ H79 V. apply terms_string in HT. destruct (find_pairs argsort h b s HA HT E HYZ H79) as (gx & r & E1 & E2 & HP & HS & HG & Hr & HV & HB).
  split; [|split; [|split; [|exact HS]]].
  - intros psi. unfold V. eapply seq_trans; [apply HV|]. eapply seq_trans; [apply compose_ext, HV|]. apply compose_invol, HP.
  - intros n a c Hn. unfold V. rewrite (inner_ext n _ _ _ _ (HV a) (HV c)). apply compose_inner; [exact HP|]. intros p q Hp Hq. specialize (HB p q Hp Hq). lia.
  - intros i x psi Hi Ex. unfold V. rewrite <- E1 in Hi |- *. rewrite <- E2 in Ex. rewrite map_length in Hi. unfold targets in Ex.
    set (d := ([], gX 0) : list gate * gate). rewrite (map_nth_in fst gx i d []) by exact Hi. rewrite (map_nth_in (fun p => gtarget (snd p)) gx i d 0) in Ex by exact Hi.
    assert (Hp : In (nth i gx d) gx) by (apply nth_In, Hi). pose proof (paired_in gx _ HP Hp) as [_ F2 F3 _].
    assert (x = snd (nth i gx d)). { destruct F2 as [_ F2]. rewrite F3 in F2. congruence. } subst x.
    eapply seq_trans; [apply HV|]. eapply seq_trans; [apply compose_swap; assumption|]. apply gate_act_ext, seq_sym, HV.
Qed.
Print Assumptions C58_unitary_partial.
Example C58_unitary_nonvacuous : exists s, find_Z2_symmetries index_sort [(C1, [gZ 0])] false = Ok s /\ length (sy_generators s) <= 79 /\ forall g, In g (sy_generators s) -> HasYZ g.
Proof.
  eexists. split; [exact C44_run|]. cbn [sy_generators]. split; [cbn; lia|]. intros g [<-|[]]. exists (gZ 0). split; [left; reflexivity|right; reflexivity].
Qed.
(** the Hamiltonian X0: the "unitary" is sqrt(2) X0 *)
Theorem C58_unitary_x_only_refuted : exists h s psi, Terms PauliString h /\ find_Z2_symmetries index_sort h false = Ok s /\ ~ op_act (sy_unitary s) (op_act (sy_unitary s) psi) == psi.
Proof.
  exists [(C1, [gX 0])], {| sy_generators := [[gX 0]]; sy_sigma := [0]; sy_unitaries := [uop [gX 0] (gX 0)]; sy_unitary := uop [gX 0] (gX 0) |}, (ket 0).
  split; [constructor; [|constructor]; cbn [snd]; split; [apply pauli_circuit_xyz; constructor; [exists 0; auto|constructor]|constructor; [intros []|constructor]]|].
  split; [reflexivity|]. cbn [sy_unitary]. intros H.
  assert (E1 : forall psi, op_act (uop [gX 0] (gX 0)) psi == sscale (RtoC rho * (C1 + C1))%C (gate_act (gX 0) psi)).
  { intros psi. eapply seq_trans; [apply u_form|]. intros J. change (circ_act [gX 0] psi) with (gate_act (gX 0) psi). unfold sscale, sadd. ring. }
  assert (E2 : op_act (uop [gX 0] (gX 0)) (op_act (uop [gX 0] (gX 0)) (ket 0)) == sscale (C1 + C1)%C (ket 0)).
  { eapply seq_trans; [apply E1|]. eapply seq_trans; [apply sscale_ext, gate_act_ext, E1|]. eapply seq_trans; [apply sscale_ext, gate_act_scale|].
    eapply seq_trans; [apply sscale_sscale|]. eapply seq_trans; [apply sscale_ext, x_inv, gX_pauli|].
    replace (RtoC rho * (C1 + C1) * (RtoC rho * (C1 + C1)))%C with (RtoC rho * RtoC rho * (C1 + C1) * (C1 + C1))%C by ring. rewrite rho_half, Cmul_1_l. apply seq_refl. }
  specialize (E2 0). rewrite (H 0) in E2. unfold sscale, ket in E2. apply (f_equal Re) in E2. cbn in E2. lra.
Qed.
Print Assumptions C58_unitary_x_only_refuted.

(** ---- C58: taper_operator ---- *)
(** For an operator of Pauli strings that commutes with the generators: the transformed operator
    V O V maps every state of the sector with the chosen signs to a state of that sector, where it
    acts on the remaining qubits as the returned operator, up to terms that simplify drops
    (pairwise different circuits with coefficients at most 1e-12). *)
Theorem C58_taper_operator_partial : forall argsort h from_least s o sign, legal_argsort argsort -> Terms PauliString h -> find_Z2_symmetries argsort h from_least = Ok s ->
  (forall g, In g (sy_generators s) -> HasYZ g) -> length (sy_generators s) <= 79 ->
  Terms PauliString o -> (forall g psi, In g (sy_generators s) -> op_act o (circ_act g psi) == circ_act g (op_act o psi)) ->
  Forall (fun z => z = 1%Z \/ z = (-1)%Z) sign -> length sign = length (sy_generators s) ->
  let V := op_act (sy_unitary s) in
  exists T d1 d2 d3 d4, taper_operator (sy_sigma s) sign o (sy_unitary s) = Ok T /\ Terms Canonical T /\ negligible d1 /\ negligible d2 /\ negligible d3 /\ negligible d4 /\
    forall phi, let big := sector (sy_sigma s) sign phi in
      V (op_act o (V big)) == sadd (sector (sy_sigma s) sign (sadd (op_act T phi) (op_act d4 phi))) (sadd (op_act d3 big) (V (sadd (op_act d2 big) (op_act d1 (V big))))).
Proof.
  intros argsort h b s o sign HA HT E HYZ H79 Ho HO HZ HL V. apply terms_string in HT. apply terms_string in Ho. destruct (find_pairs argsort h b s HA HT E HYZ H79) as (gx & r & E1 & E2 & HP & HS & HG & Hr & HV & HB).
  rewrite <- E2 in HS. destruct (taper_operator_spec gx (sy_unitary s) r o sign HP HS HG Hr HV Ho) as (T & d1 & d2 & d3 & d4 & ET & HC & H1 & H2 & H3 & H4 & HH).
  - intros p psi Hp. apply HO. rewrite <- E1. apply in_map, Hp.
  - exact HZ.
  - rewrite HL, <- E1. apply map_length.
  - rewrite <- E2. exists T, d1, d2, d3, d4. split; [exact ET|]. split; [apply terms_canonical, HC|]. do 4 (split; [assumption|]). exact HH.
Qed.
Print Assumptions C58_taper_operator_partial.
(** the Hamiltonian itself qualifies *)
Theorem C58_hamiltonian_qualifies : forall argsort h from_least s, legal_argsort argsort -> Terms PauliString h -> find_Z2_symmetries argsort h from_least = Ok s ->
  forall g psi, In g (sy_generators s) -> op_act h (circ_act g psi) == circ_act g (op_act h psi).
Proof.
  intros argsort h b s HA HT E g psi Hg. destruct (C44_generators_are_symmetries argsort h b s HA HT E) as (H1 & H2 & _). destruct (H1 g Hg) as (HC & _ & _). apply canonical_iff in HC.
  apply commute_op; [apply canonical_str, HC|apply terms_pauli; eapply Forall_impl; [|exact HT]; intros t [Ht _]; exact Ht|].
  intros t Ht. apply commute_iff; [apply canonical_str, HC| |apply H2; assumption]. unfold Terms in HT. rewrite Forall_forall in HT. apply circuit_iff, (HT t Ht).
Qed.
(** signs other than +1 and -1, or a wrong number of them, raise *)
Theorem C58_taper_operator_invalid_signs : forall tapered sign o u, (exists z, In z sign /\ z <> 1%Z /\ z <> (-1)%Z) \/ length sign <> length tapered ->
  taper_operator tapered sign o u = Throw (PyError "ValueError").
Proof.
  intros tapered sign o u H. unfold taper_operator. destruct (forallb (fun z => (z =? 1)%Z || (z =? -1)%Z) sign) eqn:EF; cbn [negb]; [|reflexivity].
  destruct H as [(z & Hz & N1 & N2)|H].
  - rewrite forallb_forall in EF. specialize (EF z Hz). apply orb_prop in EF. destruct EF as [EF|EF]; apply Z.eqb_eq in EF; congruence.
  - rewrite (proj2 (Nat.eqb_neq _ _) H). reflexivity.
Qed.
