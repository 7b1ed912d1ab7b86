(** The generators found are independent, commuting symmetries and generate all of them. *)
From Coq Require Import Reals String List Arith Lia Bool Lra Permutation.
From Verif Require Import CBase Result Bits Spec GateModel OpSpec ComputerModel SafeProofs GateProofs LibProofs CircuitModel PauliProofs OperatorModel OperatorProofs PauliIndep
  TaperModel TaperSpec TaperAlg TaperKernel TaperGS TaperAbel TaperPauli.
Import ListNotations.
Local Open Scope nat_scope.

(** ---- permuting rows ---- *)
Definition xl (f : nat -> bool) (l : list nat) : bool := fold_right (fun i s => xorb (f i) s) false l.
Lemma xl_app f a b : xl f (a ++ b) = xorb (xl f a) (xl f b).
Proof. induction a as [|x a IH]; cbn [app xl fold_right]; [rewrite xorb_false_l; reflexivity|]. fold (xl f (a ++ b)) (xl f a). rewrite IH, xorb_assoc. reflexivity. Qed.
Lemma xs_xl f m : xs f m = xl f (seq 0 m).
Proof. induction m as [|m IH]; [reflexivity|]. rewrite seq_S, xl_app. cbn. rewrite IH, xorb_false_r. reflexivity. Qed.
Lemma xl_perm f a b : Permutation a b -> xl f a = xl f b.
Proof.
  induction 1; cbn [xl fold_right]; [reflexivity|f_equal; assumption| |congruence]. fold (xl f l). destruct (f y), (f x), (xl f l); reflexivity.
Qed.
Lemma xl_map f g l : xl f (map g l) = xl (fun i => f (g i)) l.
Proof. induction l as [|x l IH]; [reflexivity|]. cbn [map xl fold_right]. fold (xl f (map g l)). rewrite IH. reflexivity. Qed.
Lemma order_map order l : length order = l -> map (fun i => nth i order 0) (seq 0 l) = order.
Proof.
  intros <-. apply nth_ext with 0 0; [rewrite map_length, seq_length; reflexivity|]. intros i Hi. rewrite map_length, seq_length in Hi.
  rewrite (nth_map_in _ _ i 0) by (rewrite seq_length; exact Hi). rewrite seq_nth by exact Hi. reflexivity.
Qed.
Lemma xs_order f order l : Permutation order (seq 0 l) -> xs (fun i => f (nth i order 0)) l = xs f l.
Proof.
  intros H. rewrite !xs_xl. transitivity (xl f (map (fun i => nth i order 0) (seq 0 l))); [symmetry; apply xl_map|].
  rewrite order_map by (rewrite (Permutation_length H), seq_length; reflexivity). apply xl_perm, H.
Qed.
Section Perm.
  Variables (l : nat) (order : list nat).
  Hypothesis HO : Permutation order (seq 0 l).
  Lemma order_len : length order = l. Proof. rewrite (Permutation_length HO). apply seq_length. Qed.
  Lemma order_lt i : i < l -> nth i order 0 < l.
  Proof. intros H. assert (HI : In (nth i order 0) (seq 0 l)) by (apply (Permutation_in _ HO), nth_In; rewrite order_len; exact H). apply in_seq in HI. lia. Qed.
  Lemma order_nodup : NoDup order. Proof. apply (Permutation_NoDup (Permutation_sym HO)), seq_NoDup. Qed.
  Lemma order_inj i j : i < l -> j < l -> nth i order 0 = nth j order 0 -> i = j.
  Proof. intros Hi Hj. apply NoDup_nth; [apply order_nodup|rewrite order_len; exact Hi|rewrite order_len; exact Hj]. Qed.
  Lemma order_onto r : r < l -> exists i, i < l /\ nth i order 0 = r.
  Proof.
    intros H. assert (HI : In r order) by (apply (Permutation_in _ (Permutation_sym HO)), in_seq; lia). apply (In_nth _ _ 0) in HI.
    destruct HI as (i & Hi & E). rewrite order_len in Hi. eauto.
  Qed.
  Lemma indep_order F G : (forall i k, i < l -> G i k = F (nth i order 0) k) -> indep l F -> indep l G.
  Proof.
    intros HG HF c Hc. set (c' := fun r => xs (fun i => (nth i order 0 =? r) && c i) l).
    assert (Ec : forall i, i < l -> c' (nth i order 0) = c i).
    { intros i Hi. unfold c'. rewrite (xs_ext _ (fun j => (j =? i) && c j)); [apply xs_delta, Hi|]. intros j Hj.
      destruct (Nat.eqb_spec j i) as [->|N]; [rewrite Nat.eqb_refl; reflexivity|]. destruct (Nat.eqb_spec (nth j order 0) (nth i order 0)) as [E|]; [|reflexivity].
      exfalso. apply N, order_inj; assumption. }
    intros i Hi. rewrite <- Ec by exact Hi. apply HF; [|apply order_lt, Hi]. intros k. rewrite <- (Hc k). unfold comb.
    rewrite <- (xs_order (fun r => c' r && F r k) order l HO). apply xs_ext. intros j Hj. rewrite Ec, HG by exact Hj. reflexivity.
  Qed.
  Lemma span_order F G v : (forall i k, i < l -> G i k = F (nth i order 0) k) -> inspan l F v -> inspan l G v.
  Proof.
    intros HG [c Hc]. exists (fun i => c (nth i order 0)). intros k. rewrite Hc. unfold comb. rewrite <- (xs_order (fun r => c r && F r k) order l HO).
    apply xs_ext. intros j Hj. rewrite HG by exact Hj. reflexivity.
  Qed.
End Perm.

(** ---- the binary generators ---- *)
Definition orth_terms (n : nat) (h : qop) (u : nat -> bool) : Prop := forall t, In t h -> sf n (vec_of n (snd t)) u = false.
Lemma sf_xor_r n w u v : sf n w (fun k => xorb (u k) (v k)) = xorb (sf n w u) (sf n w v).
Proof. rewrite sf_sym, sf_xor, !(sf_sym n w). reflexivity. Qed.
Theorem binary_spec h n b : n = op_num_qubits h -> distinct_op h -> (forall t, In t h -> below n (snd t)) ->
  let B := kernel_basis n (length h) (parity_check_matrix n h) in let sg := symplectic_gs B (commutation B) in
  exists M, maximal_abelian n (fst sg) (snd sg) b = Ok M /\ wide (2 * n) M /\ Reduced n M /\ indep (length M) (view M) /\
    (forall i j, i < length M -> j < length M -> gram n M i j = false) /\
    (forall i, i < length M -> orth_terms n h (view M i)) /\
    (forall u, (forall k, 2 * n <= k -> u k = false) -> orth_terms n h u -> (forall i, i < length M -> sf n u (view M i) = false) -> inspan (length M) (view M) u).
Proof.
  intros _ HD HB. set (pcm := parity_check_matrix n h). set (m := length h). intros B sg.
  assert (Lp : length pcm = m) by (unfold pcm, parity_check_matrix; apply map_length).
  assert (Rp : forall t, t < m -> row_of pcm t = parity_row n (snd (nth t h (C0, [])))) by (intros t Ht; unfold row_of, pcm, parity_check_matrix; rewrite (nth_map_in _ _ t (C0, [])) by exact Ht; reflexivity).
  assert (Wp : wide (2 * n) pcm).
  { unfold wide, pcm, parity_check_matrix. apply Forall_forall. intros r Hr. apply in_map_iff in Hr. destruct Hr as (t & <- & Ht). apply parity_row_spec, HB, Ht. }
  assert (Pp : forall v t, t < m -> xs (fun j => view pcm t j && v j) (2 * n) = sf n (vec_of n (snd (nth t h (C0, [])))) v).
  { intros v t Ht. unfold view. rewrite Rp by exact Ht. apply parity_row_spec, HB, nth_In, Ht. }
  assert (Hterms : forall v, (forall t, t < m -> xs (fun j => view pcm t j && v j) (2 * n) = false) <-> orth_terms n h v).
  { intros v. split; intros H.
    - intros t Ht. apply (In_nth _ _ (C0, [])) in Ht. destruct Ht as (i & Hi & <-). rewrite <- Pp by exact Hi. apply H, Hi.
    - intros t Ht. rewrite Pp by exact Ht. apply H, nth_In, Ht. }
  destruct (kernel_spec n m pcm Lp Wp) as (WB & IB & KB & SB). fold B in WB, IB, KB, SB.
  destruct (sgs_spec n B WB) as (LS & WS & RS & CS & OS). fold sg in LS, WS, RS, CS, OS. set (S := fst sg) in *.
  assert (OS' : AtMostOne n S) by (intros i j k; rewrite LS; apply OS).
  destruct (abelian_spec n (Datatypes.S (length S)) S (Nat.lt_succ_diag_r _) WS OS') as (G & EG & WG & ZG & IG & RG & SG & _).
  set (cols := if b then rev (seq n n) else seq n n).
  destruct (reduce_spec n G cols WG) as (LM & WM & RM & DM).
  { intros c. unfold cols. destruct b; rewrite <- ?in_rev, in_seq; lia. }
  set (M := reduce_columns cols G [] 0) in *.
  exists M. split; [unfold maximal_abelian; fold S; rewrite CS, EG; reflexivity|]. split; [exact WM|]. split; [exact DM|].
  assert (CX : forall w (u v : nat -> bool), (forall k, u k = v k) -> sf n w u = false -> sf n w v = false) by (intros w u v E H; rewrite <- H; apply sf_ext; [reflexivity|intros; symmetry; apply E]).
  assert (CA : forall w (u v : nat -> bool), sf n w u = false -> sf n w v = false -> sf n w (fun k => xorb (u k) (v k)) = false) by (intros w u v E1 E2; rewrite sf_xor_r, E1, E2; reflexivity).
  assert (HG_orth : forall w, (forall i, i < length G -> sf n w (view G i) = false) -> forall i, i < length M -> sf n w (view M i) = false).
  { intros w Hw. rewrite LM. apply (requiv_closed (length G) (view G) (view M) (fun u => sf n w u = false) (CX w) (CA w) RM Hw). }
  assert (HM_orth : forall w, (forall i, i < length M -> sf n w (view M i) = false) -> forall i, i < length G -> sf n w (view G i) = false).
  { intros w Hw. rewrite LM in Hw. apply (requiv_closed (length G) (view M) (view G) (fun u => sf n w u = false) (CX w) (CA w) (requiv_sym _ _ _ RM) Hw). }
  split; [|split; [|split]].
  - rewrite LM. apply (requiv_indep _ _ _ RM), IG. rewrite LS. apply (requiv_indep _ _ _ RS), IB.
  - intros i j Hi Hj. unfold gram. rewrite sf_sym. revert i Hi. apply HG_orth. intros i Hi. rewrite sf_sym. revert j Hj. apply HG_orth. intros j Hj. apply (ZG i j Hi Hj).
  - intros i Hi t Ht. revert i Hi. apply HG_orth. intros i Hi. destruct (RG i Hi) as (j & Hj & Hv). apply (CX _ (view S j)); [intros; symmetry; apply Hv|]. rewrite LS in Hj. revert j Hj Hv.
    assert (HS : forall j, j < length B -> sf n (vec_of n (snd t)) (view S j) = false).
    { apply (requiv_closed (length B) (view B) (view S) (fun u => sf n (vec_of n (snd t)) u = false) (CX _) (CA _) RS). intros j Hj. apply (proj1 (Hterms (view B j))); [|exact Ht].
      intros t' Ht'. apply KB; assumption. }
    intros j Hj _. apply HS, Hj.
  - intros u Hu Ho Hm. rewrite LM. apply (requiv_span _ _ _ _ (requiv_sym _ _ _ RM)). apply SG.
    + rewrite LS. apply (requiv_span _ _ _ _ (requiv_sym _ _ _ RS)). apply SB; [exact Hu|]. apply Hterms, Ho.
    + apply HM_orth, Hm.
Qed.

(** ---- commutation with one gate, as an operator ---- *)
Definition sign_of (A : gate) (gs : list gate) (b : bool) : Prop := forall psi, circ_act gs (gate_act A psi) == sscale (sgn b) (gate_act A (circ_act gs psi)).
Lemma sign_of_str A gs : pauli_gate A -> str gs -> sign_of A gs (anti (glabel A) (gtarget A) gs).
Proof. intros HA [HP HN] psi. apply (string_anti A gs HA HP HN psi). Qed.
Lemma sign_of_app A g h b c : sign_of A g b -> sign_of A h c -> sign_of A (g ++ h) (xorb b c).
Proof.
  intros Hg Hh psi. rewrite !circ_act_app. eapply seq_trans; [apply circ_act_ext, Hg|]. eapply seq_trans; [apply circ_act_scale|].
  eapply seq_trans; [apply sscale_ext, Hh|]. eapply seq_trans; [apply sscale_sscale|]. rewrite sgn_xor. apply seq_refl.
Qed.
Lemma pauli_nonzero gs : Forall pauli_gate gs -> ~ (forall psi, circ_act gs psi == szero).
Proof.
  intros HP H. pose proof (circ_wact_inv gs HP (ket 0) 0) as E. rewrite (H _ 0) in E. unfold szero, ket in E. cbn in E. apply (f_equal Re) in E. cbn in E. lra.
Qed.
Lemma sgn_neq a b : a <> b -> (sgn a - sgn b)%C <> C0.
Proof. intros N E. destruct a, b; try congruence; apply (f_equal Re) in E; cbn in E; lra. Qed.
Lemma Cmul_zero a b : (a * b)%C = C0 -> a <> C0 -> b = C0.
Proof. intros E N. destruct (Ceq_dec b C0) as [|Nb]; [assumption|]. exfalso. apply N. apply Cmul_integral in E. tauto. Qed.
Lemma sign_of_unique A gs a b : pauli_gate A -> Forall pauli_gate gs -> sign_of A gs a -> sign_of A gs b -> a = b.
Proof.
  intros HA HP Ha Hb. destruct (bool_dec a b) as [|N]; [assumption|]. exfalso. apply (pauli_nonzero (gs ++ [A])); [apply Forall_app; split; [exact HP|constructor; [exact HA|constructor]]|].
  intros psi J. rewrite circ_act_app. change (circ_act [A]) with (gate_act A). unfold szero. apply (Cmul_zero (sgn a - sgn b)%C); [|apply sgn_neq, N].
  pose proof (Ha psi J) as E1. pose proof (Hb psi J) as E2. rewrite E1 in E2. unfold sscale in E2.
  replace ((sgn a - sgn b) * gate_act A (circ_act gs psi) J)%C with (sgn a * gate_act A (circ_act gs psi) J - sgn b * gate_act A (circ_act gs psi) J)%C by ring. rewrite E2. ring.
Qed.
Lemma commute_iff g h : str g -> Forall pauli_gate h -> Commute g h <-> anti_str g h = false.
Proof.
  intros Hg Hh. pose proof (strings_commute g h Hg Hh) as HS. split.
  - intros HC. destruct (anti_str g h) eqn:E; [|reflexivity]. exfalso. apply (pauli_nonzero (g ++ h)); [apply Forall_app; split; [apply Hg|exact Hh]|].
    intros psi J. rewrite circ_act_app. unfold szero. pose proof (HS psi J) as E1. rewrite (HC psi J) in E1. unfold sscale, sgn in E1.
    set (x := circ_act h (circ_act g psi) J) in *. apply (Cmul_zero (C1 + C1)%C); [|intros E2; apply (f_equal Re) in E2; cbn in E2; lra].
    replace ((C1 + C1) * x)%C with (x + x)%C by ring. rewrite E1 at 1. ring.
  - intros E psi. eapply seq_trans; [apply HS|]. rewrite E. apply sscale_1.
Qed.
Lemma anticommute_iff g h : str g -> Forall pauli_gate h -> Anticommute g h <-> anti_str g h = true.
Proof.
  intros Hg Hh. pose proof (strings_commute g h Hg Hh) as HS. split.
  - intros HC. destruct (anti_str g h) eqn:E; [reflexivity|]. exfalso. apply (pauli_nonzero (g ++ h)); [apply Forall_app; split; [apply Hg|exact Hh]|].
    intros psi J. rewrite circ_act_app. unfold szero. pose proof (HS psi J) as E1. rewrite (HC psi J) in E1. unfold sscale, sgn in E1.
    set (x := circ_act h (circ_act g psi) J) in *. apply (Cmul_zero (C1 + C1)%C); [|intros E2; apply (f_equal Re) in E2; cbn in E2; lra].
    replace ((C1 + C1) * x)%C with (C1 * x + x)%C by ring. rewrite <- E1 at 1. ring.
  - intros E psi. eapply seq_trans; [apply HS|]. rewrite E. apply seq_refl.
Qed.

(** ---- products of generators ---- *)
Definition genf (n : nat) (gens : list (list gate)) (i : nat) : nat -> bool := vec_of n (nth i gens []).
Lemma product_cons b sel g gens : product (b :: sel) (g :: gens) = if b then (g ++ product sel gens)%list else product sel gens.
Proof. unfold product. cbn [combine filter fst]. destruct b; reflexivity. Qed.
Lemma product_pauli sel : forall gens, Forall str gens -> Forall pauli_gate (product sel gens).
Proof.
  induction sel as [|b sel IH]; intros [|g gens] H; try constructor. rewrite product_cons. inversion H; subst. destruct b; [|apply IH; assumption].
  apply Forall_app. split; [apply H2|apply IH; assumption].
Qed.
Lemma product_sign A sel : pauli_gate A -> forall gens, Forall str gens -> length sel = length gens ->
  sign_of A (product sel gens) (xs (fun i => nth i sel false && anti (glabel A) (gtarget A) (nth i gens [])) (length gens)).
Proof.
  intros HA. induction sel as [|b sel IH]; intros [|g gens] H HL; try discriminate.
  - intros psi. apply seq_sym, sscale_1.
  - cbn [length] in *. inversion H; subst. rewrite xs_head, product_cons. cbn [nth]. specialize (IH gens H3 ltac:(lia)). destruct b; cbn [andb].
    + apply sign_of_app; [apply sign_of_str; assumption|exact IH].
    + rewrite xorb_false_l. exact IH.
Qed.
(** anticommutation with a one-qubit gate reads off one component *)
Lemma anti_component n k : k < 2 * n -> exists A, pauli_gate A /\ gtarget A < n /\ forall gs, str gs -> anti (glabel A) (gtarget A) gs = vec_of n gs k.
Proof.
  intros Hk. destruct (lt_dec k n) as [Hl|Hge].
  - destruct (pauli_make "Z" (n - k - 1) eq_refl) as (A & _ & HA & EL & ET & _). exists A. split; [exact HA|]. split; [lia|]. intros gs Hg. rewrite EL, ET, anti_xz by (try reflexivity; exact Hg).
    unfold vec_of. destruct (Nat.ltb_spec k n); [|lia]. cbn. rewrite andb_true_r, andb_false_r, xorb_false_r. reflexivity.
  - destruct (pauli_make "X" (2 * n - k - 1) eq_refl) as (A & _ & HA & EL & ET & _). exists A. split; [exact HA|]. split; [lia|]. intros gs Hg. rewrite EL, ET, anti_xz by (try reflexivity; exact Hg).
    unfold vec_of. destruct (Nat.ltb_spec k n); [lia|]. destruct (Nat.ltb_spec k (2 * n)); [|lia]. cbn. rewrite andb_true_r, andb_false_r, xorb_false_l. reflexivity.
Qed.
Lemma below_anti n gs A : below n gs -> n <= gtarget A -> anti (glabel A) (gtarget A) gs = false.
Proof. intros H HA. apply anti_notin. intros Hin. apply in_map_iff in Hin. destruct Hin as (g & E & Hg). specialize (H g Hg). lia. Qed.
Lemma vec_anti n gs A : pauli_gate A -> str gs -> below n gs -> gtarget A < n ->
  anti (glabel A) (gtarget A) gs = xorb (vec_of n gs (n - gtarget A - 1) && lz (glabel A)) (vec_of n gs (2 * n - gtarget A - 1) && lx (glabel A)).
Proof.
  intros HA Hg Hb Ht. rewrite (anti_xz _ _ _ (proj1 HA) Hg). unfold vec_of. destruct (Nat.ltb_spec (n - gtarget A - 1) n); [|lia].
  destruct (Nat.ltb_spec (2 * n - gtarget A - 1) n); [lia|]. destruct (Nat.ltb_spec (2 * n - gtarget A - 1) (2 * n)); [|lia].
  replace (n - (n - gtarget A - 1) - 1) with (gtarget A) by lia. replace (2 * n - (2 * n - gtarget A - 1) - 1) with (gtarget A) by lia. reflexivity.
Qed.

Lemma independent_of n gens : Forall str gens -> indep (length gens) (genf n gens) -> Independent gens.
Proof.
  intros HS HI sel HL [c Hc]. assert (Hz : forall i, i < length gens -> nth i sel false = false).
  { apply HI. intros k. destruct (lt_dec k (2 * n)) as [Hk|Hk].
    2: { apply xs_zero. intros i _. unfold genf. rewrite vec_above by lia. apply andb_false_r. }
    destruct (anti_component n k Hk) as (A & HA & HT & HV).
    pose proof (product_sign A sel HA gens HS HL) as HP. set (b := xs _ _) in HP.
    assert (Eb : comb (length gens) (fun i => nth i sel false) (genf n gens) k = b).
    { unfold comb, b. apply xs_ext. intros i Hi. rewrite HV; [reflexivity|]. rewrite Forall_forall in HS. apply HS, nth_In, Hi. }
    rewrite Eb. apply (sign_of_unique A (product sel gens)); [exact HA|apply product_pauli, HS|exact HP|].
    intros psi. eapply seq_trans; [apply Hc|]. eapply seq_trans; [|apply seq_sym, sscale_1]. eapply seq_trans; [|apply gate_act_ext, seq_sym, Hc]. apply seq_sym, gate_act_scale. }
  apply Forall_forall. intros x Hx. apply (In_nth _ _ false) in Hx. destruct Hx as (i & Hi & <-). symmetry. apply Hz. lia.
Qed.
Lemma canonical_from_signs p q : canonical_pauli p -> canonical_pauli q -> (forall A, pauli_gate A -> anti (glabel A) (gtarget A) p = anti (glabel A) (gtarget A) q) -> p = q.
Proof.
  intros Hp Hq H. destruct (ldec (letters p) (letters q)) as [E|NL]; [apply letters_inj; [apply Hp|apply Hq|exact E]|]. assert (N : p <> q) by congruence.
  destruct (separate p q Hp Hq N) as (A & HA & HN). exfalso. apply HN, H, HA.
Qed.
Lemma Cnorm1_nonzero c : Cnorm2 c = 1%R -> c <> C0.
Proof. intros E ->. unfold Cnorm2 in E. cbn in E. lra. Qed.
Lemma sscale_cancel c a b : c <> C0 -> sscale c a == sscale c b -> a == b.
Proof.
  intros Hc H J. specialize (H J). unfold sscale in H. assert (E : (c * (a J - b J))%C = C0) by (replace (c * (a J - b J))%C with (c * a J - c * b J)%C by ring; rewrite H; ring).
  apply Cmul_zero in E; [|exact Hc]. replace (a J) with ((a J - b J) + b J)%C by ring. rewrite E. ring.
Qed.
Lemma generated_of n gens g : Forall str gens -> Forall (below n) gens -> str g -> below n g -> inspan (length gens) (genf n gens) (vec_of n g) -> Generated gens g.
Proof.
  intros HS HB Hg Hbg [c Hc]. set (l := length gens) in *. set (sel := map c (seq 0 l)).
  assert (Lsel : length sel = l) by (unfold sel; rewrite map_length, seq_length; reflexivity).
  assert (Nsel : forall i, i < l -> nth i sel false = c i) by (intros i Hi; unfold sel; rewrite (nth_map_in _ _ i 0) by (rewrite seq_length; exact Hi); rewrite seq_nth by exact Hi; reflexivity).
  set (W := product sel gens). assert (HW : Forall pauli_gate W) by (apply product_pauli, HS).
  destruct (canon_circuit W HW) as (cw & W' & _ & HCW & Nw & _ & AW). destruct (canon_circuit g (proj1 Hg)) as (cg & g' & _ & HCg & Ng & _ & Ag).
  assert (Nz : forall c, Cnorm2 c = 1%R -> Cconj c <> C0) by (intros x Hx; apply Cnorm1_nonzero; rewrite <- Hx; unfold Cnorm2, Cconj; cbn; ring).
  assert (Tr : forall A p p' x b, Cconj x <> C0 -> (forall psi, circ_act p psi == sscale (Cconj x) (circ_act p' psi)) -> sign_of A p b -> sign_of A p' b).
  { intros A p p' x b Hx HA Hs psi. apply (sscale_cancel (Cconj x)); [exact Hx|]. eapply seq_trans; [apply seq_sym, HA|]. eapply seq_trans; [apply Hs|].
    eapply seq_trans; [apply sscale_ext, gate_act_ext, HA|]. eapply seq_trans; [apply sscale_ext, gate_act_scale|]. intros J. unfold sscale. ring. }
  assert (EQ : W' = g').
  { apply canonical_from_signs; [exact HCW|exact HCg|]. intros A HA.
    pose proof (Tr A W W' cw _ (Nz cw Nw) AW (product_sign A sel HA gens HS Lsel)) as S1.
    pose proof (Tr A g g' cg _ (Nz cg Ng) Ag (sign_of_str A g HA Hg)) as S2.
    pose proof (sign_of_str A W' HA (canonical_str W' HCW)) as S3. pose proof (sign_of_str A g' HA (canonical_str g' HCg)) as S4.
    rewrite (sign_of_unique A W' _ _ HA (proj1 HCW) S3 S1), (sign_of_unique A g' _ _ HA (proj1 HCg) S4 S2).
    assert (HSi : forall i, i < length gens -> str (nth i gens []) /\ below n (nth i gens [])) by (intros i Hi; rewrite Forall_forall in HS, HB; split; [apply HS|apply HB]; apply nth_In, Hi).
    destruct (lt_dec (gtarget A) n) as [Ht|Ht].
    - rewrite (vec_anti n g A HA Hg Hbg Ht), !Hc. unfold comb. fold l. rewrite <- !xs_and_r, <- xs_xor. apply xs_ext. intros i Hi. rewrite Nsel by exact Hi.
      destruct (HSi i Hi) as [H1 H2]. rewrite (vec_anti n _ A HA H1 H2 Ht). unfold genf. destruct (c i), (lz (glabel A)), (lx (glabel A)), (vec_of n (nth i gens []) (n - gtarget A - 1)), (vec_of n (nth i gens []) (2 * n - gtarget A - 1)); reflexivity.
    - rewrite (below_anti n g A Hbg) by lia. apply xs_zero. intros i Hi. destruct (HSi i Hi) as [H1 H2]. rewrite (below_anti n _ A H2) by lia. apply andb_false_r. }
  exists sel, (Cconj cg * cw)%C. split; [exact Lsel|]. fold W. intros psi. eapply seq_trans; [apply Ag|]. rewrite <- EQ.
  assert (EW : circ_act W' psi == sscale cw (circ_act W psi)).
  { eapply seq_trans; [|apply sscale_ext, seq_sym, AW]. eapply seq_trans; [|apply seq_sym, sscale_sscale]. 
    replace (cw * Cconj cw)%C with C1; [apply seq_sym, sscale_1|]. replace (cw * Cconj cw)%C with (Cconj cw * cw)%C by ring. rewrite Cmul_conj, Nw. reflexivity. }
  eapply seq_trans; [apply sscale_ext, EW|]. apply sscale_sscale.
Qed.
