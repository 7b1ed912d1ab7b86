(** UCC.ansatz_circuit: both branches are the product of the exponentials. *)
From Coq Require Import Reals String List Arith Bool Lia Lra Sorted Permutation FunctionalExtensionality.
From Verif Require Import CBase Result Bits Spec OpSpec GateModel ComputerModel SafeProofs LibProofs CircuitModel PauliProofs OperatorModel OperatorProofs OrderProofs PauliIndep SQSpec SQModel SQProofs SQPhase JWProofs SQPoolModel SQPoolOps GsdProofs PyModel CompactModel CompactAct CompactFermi CompactProofs CompactGsd TwoLevel PauliPhase ExpSpec ExpProofs TrotterProofs PropPy AnsatzSpec AnsatzOrder AnsatzModel AnsatzGen AnsatzJW.
Import ListNotations.
Local Open Scope nat_scope.

Lemma exp_product_app l1 l2 psi phi : exp_product (l1 ++ l2) psi phi <-> exists chi, exp_product l1 psi chi /\ exp_product l2 chi phi.
Proof.
  revert psi. induction l1 as [|[c A] l1 IH]; intros psi; cbn [app exp_product].
  - split; [intros H; exists psi; split; [apply seq_refl|exact H]|]. intros (chi & E & H). replace psi with chi; [exact H|]. extensionality I. apply E.
  - split.
    + intros (chi & H1 & H2). apply IH in H2. destruct H2 as (xi & H2 & H3). exists xi. split; [exists chi; auto|exact H3].
    + intros (xi & (chi & H1 & H2) & H3). exists chi. split; [exact H1|]. apply IH. exists xi. auto.
Qed.
(** one selected operator: amplitude, coefficient, index lists *)
Record item := mkItem { amp_ : R; co_ : R; up_ : list nat; dn_ : list nat }.
Definition item_entry (x : item) : C * list fterm := (RtoC (amp_ x), Antihermitian (co_ x) (up_ x) (dn_ x)).
Definition item_factor (qe : bool) (x : item) : C * (state -> state) := (RtoC (amp_ x), act qe (Antihermitian (co_ x) (up_ x) (dn_ x))).
Lemma gen_ext_ F k a b : a == b -> gen F k a == gen F k b.
Proof. intros H I. unfold gen. now rewrite H. Qed.
Lemma excitable_swap P H : Excitable P H -> Excitable H P.
Proof.
  intros (Ne & L & DP & DH & D). split; [intros ->; destruct P; [contradiction|discriminate]|]. split; [now symmetry|]. split; [exact DH|]. split; [exact DP|]. destruct D as [D|(q & p & s & N1 & N2 & N3 & HP & HH)].
  - left. intros k K1 K2. exact (D k K2 K1).
  - right. exists q, s, p. repeat split; try congruence; tauto.
Qed.
Lemma excitable_ne P H : Excitable P H -> P <> H.
Proof.
  intros (Ne & L & DP & DH & [D|(q & p & s & N1 & N2 & N3 & [-> | ->] & [-> | ->])]) E; try (injection E; congruence). subst H. destruct P as [|x P]; [contradiction|]. apply (D x); now left.
Qed.
Lemma act_multiple qe P H a c psi phi : Excitable P H -> is_exp (RtoC c) (act qe (Antihermitian a P H)) psi phi <-> is_exp (RtoC (c * a)) (act qe (kappa P H)) psi phi.
Proof.
  intros HE. destruct (excitable_structure qe P H HE) as (X & k & q0 & S).
  assert (EA : act qe (Antihermitian a P H) = fun p => sscale (RtoC a) (act qe (kappa P H) p)) by (extensionality p; extensionality I; apply act_pair).
  rewrite EA. replace (RtoC (c * a)) with (RtoC c * RtoC a)%C by (apply C_ext; cbn; ring). symmetry. apply is_exp_scale.
  - intros x y E I. rewrite !(st_act _ _ _ _ _ _ S). now apply gen_ext_.
  - intros w x I. unfold sscale. rewrite !(st_act _ _ _ _ _ _ S). unfold gen. ring.
Qed.
Lemma pair_swap qe a P H : act qe (Antihermitian a P H) = act qe (Antihermitian (- a) H P).
Proof.
  extensionality psi. extensionality I. rewrite !act_pair. transitivity (RtoC (- a) * (- act qe (kappa P H) psi I))%C; [apply C_ext; cbn; ring|]. f_equal.
  unfold act. destruct qe; unfold qexc_act, fermi_act, kappa; rewrite !Csum_cons, !Csum_nil; unfold fcoef, fcre, fann; cbn [fst snd]; ring.
Qed.

(** ---- compact branch ---- *)
(** the pattern for which the compact circuit of a fermionic excitation is wrong (C61) *)
Definition compact_ok (qe : bool) (P H : list nat) : Prop := Excitable P H /\ (qe = true \/ forall q p s, P = [s; q] -> H = [q; p] -> False).
Lemma compact_pair qe P H th : compact_ok qe P H -> exists circ, compact_excitation_circuit (RtoC th) H P qe = Ok circ /\ forall psi, is_exp (RtoC th) (act qe (kappa H P)) psi (circ_act circ psi).
Proof.
  intros (HE & HB). destruct (excitable_swap _ _ HE) as (Ne & L & DH & DP & D). unfold act. destruct qe.
  - destruct D as [D|(q & p & s & N1 & N2 & N3 & HH & HP)]; [apply compact_qubit; try assumption; now apply desc_NoDup|now apply (compact_qubit_gsd th p q s)].
  - destruct HB as [|HB]; [discriminate|]. destruct D as [D|(q & p & s & N1 & N2 & N3 & HH & HP)]; [now apply compact_fermi|]. apply (compact_fermi_gsd th p q s); try assumption.
    destruct HH as [-> | ->], HP as [-> | ->]; cbn [hd nth]; try congruence. intros _. exact (HB q p s eq_refl eq_refl).
Qed.
Lemma compact_items srt sort qe m items : Forall (fun x => compact_ok qe (up_ x) (dn_ x)) items ->
  exists U, ansatz_of_pool srt sort true qe m (map item_entry items) = Ok U /\ forall psi, exp_product (map (item_factor qe) items) psi (circ_act U psi).
Proof.
  unfold ansatz_of_pool.
  enough (G : forall items, Forall (fun x => compact_ok qe (up_ x) (dn_ x)) items -> forall U0, exists U, foreach (map item_entry items) (fun (ta : C * list fterm) (U : list gate) =>
      match nth_error (snd ta) 1 with None => Throw (PyError "IndexError") | Some t => do c <- compact_excitation_circuit (fst ta * fcoef t)%C (fcre t) (fann t) qe; Ok (U ++ c)%list end) U0 = Ok (U0 ++ U)%list /\ forall psi, exp_product (map (item_factor qe) items) psi (circ_act U psi)).
  { intros H. destruct (G items H []) as (U & E & HU). exists U. split; [exact E|exact HU]. }
  clear items. induction 1 as [|[t a P H] items Hx _ IH]; intros U0; cbn [map foreach].
  - exists []. rewrite app_nil_r. split; [reflexivity|]. intros psi. apply seq_refl.
  - cbn [up_ dn_] in Hx. destruct (compact_pair qe P H (t * - a) Hx) as (circ & E & HC). unfold item_entry at 1 2. cbn [amp_ co_ up_ dn_ fst snd nth_error Antihermitian]. unfold fcoef, fcre, fann. cbn [fst snd].
    replace (RtoC t * RtoC (- a))%C with (RtoC (t * - a)) by (apply C_ext; cbn; ring). rewrite E. cbn [bind]. destruct (IH (U0 ++ circ)%list) as (U & EU & HU). exists (circ ++ U)%list. rewrite app_assoc. split; [exact EU|].
    intros psi. cbn [exp_product item_factor]. unfold item_factor at 1. cbn [amp_ co_ up_ dn_]. exists (circ_act circ psi). split; [|rewrite circ_act_app; apply HU]. rewrite pair_swap. apply act_multiple; [apply excitable_swap, Hx|]. apply HC.
Qed.

(** ---- Trotter branch ---- *)
Definition big_enough (P H : list nat) (x : R) : Prop := (1e-12 * 2 ^ (length P + length H) < Rabs x)%R.
Definition trotter_ok (x : item) : Prop :=
  Excitable (up_ x) (dn_ x) /\ length (up_ x) + length (dn_ x) <= 39 /\ big_enough (up_ x) (dn_ x) (co_ x) /\ (amp_ x = 0%R \/ big_enough (up_ x) (dn_ x) (amp_ x * co_ x)).
(** the strings of one operator *)
Record child_ok (qe : bool) (x : item) (c : qop) : Prop := {
  ch_exp : forall z psi phi, exp_product (map (fun u => (RtoC z * fst u, circ_act (snd u))%C) c) psi phi -> is_exp (RtoC (z * amp_ x)) (act qe (Antihermitian (co_ x) (up_ x) (dn_ x))) psi phi;
  ch_im : Forall (fun u => Re (fst u) = 0%R) c;
  ch_word : Forall (fun u => canonical_pauli (snd u) /\ snd u <> []) c;
  ch_reg : forall n, Forall (fun p => p < n) (up_ x) -> Forall (fun p => p < n) (dn_ x) -> in_reg n c }.
Lemma is_exp_zero A psi : is_exp (RtoC 0) A psi psi.
Proof.
  intros I. assert (EP : forall n, exp_partial (RtoC 0) A psi I n = psi I).
  { induction n as [|n IH]; [unfold exp_partial; cbn [seq]; rewrite Csum_cons, Csum_nil; cbn [Cpow fact INR Nat.iter nat_rect]; apply C_ext; cbn; field|]. rewrite partial_S, IH. cbn [Cpow]. apply C_ext; cbn; ring. }
  split; apply (Un_cv_ext (fun _ => _)) with (1 := fun n => f_equal _ (eq_sym (EP n))); apply cv_const.
Qed.
Lemma act_perm o o' psi I : Permutation o o' -> op_act o psi I = op_act o' psi I.
Proof. intros HP. unfold op_act. now apply Csum_perm. Qed.
Lemma one_child srt sort qe x : legal_sort srt -> legal_term_sort sort -> trotter_ok x ->
  exists o' c, jw_transform srt qe (Antihermitian (co_ x) (up_ x) (dn_ x)) = Ok (o', c) /\
    exists c1 c2, op_simplify true (op_mult_coeffs c (RtoC (amp_ x))) = Ok c1 /\ order_terms sort c1 = Ok c2 /\ child_ok qe x c2.
Proof.
  destruct x as [t a P H]. unfold trotter_ok, big_enough. cbn [amp_ co_ up_ dn_]. intros HS HT (HE & L & Ba & Bt). set (n := length P + length H) in *.
  pose proof HE as (Ne & LL & DP & DH & _). destruct (excitable_structure qe P H HE) as (X & k & q0 & S).
  destruct (jw_pair_exists qe P H Ne (excitable_ne _ _ HE) DP DH L) as (q & J).
  eexists _, _. split; [apply (jp_jw _ _ _ _ J srt a HS Ba)|].
  assert (Pq : pauli_op q) by (apply canonical_pauli_op, J).
  destruct (Req_EM_T t 0) as [->|Nt].
  - assert (W0 : strict_weak term_less ([] : qop)) by (split; [intros x []|split; intros x y z []]). destruct (HT term_less [] W0) as (HPm & _). apply Permutation_sym, Permutation_nil in HPm.
    exists [], []. split; [|split].
    + rewrite mult_mult. replace (RtoC a * RtoC 0)%C with C0 by (apply C_ext; cbn; ring). eapply simplify_zero, J.
    + unfold order_terms. change (op_simplify true []) with (@Ok qop []). cbn [bind]. now rewrite HPm.
    + constructor; [|constructor|constructor|intros; constructor]. cbn [map exp_product amp_ co_ up_ dn_]. intros z psi phi E. rewrite Rmult_0_r. replace phi with psi by (extensionality I; symmetry; apply E). apply is_exp_zero.
  - destruct Bt as [Bt|Bt]; [contradiction|]. set (w := (RtoC a * RtoC t)%C). assert (Bw : (1e-12 * 2 ^ n < Cabs w)%R) by (unfold w; rewrite Cabs_mul, !Cabs_RtoC, <- Rabs_mult, (Rmult_comm a t); exact Bt).
    assert (Ew : w = RtoC (t * a)) by (unfold w; apply C_ext; cbn; ring).
    assert (Nw : w <> C0) by (intros K; rewrite K, Cabs_C0 in Bw; pose proof (pow_ge1 n); lra).
    set (c1 := op_mult_coeffs q w).
    assert (F1 : op_simplify true c1 = Ok c1) by (apply (simplify_scale n); [exact L|exact Pq|exact (jp_dy _ _ _ _ J)|exact Bw|exact (jp_fixed _ _ _ _ J)]).
    assert (C1' : canonical_op c1) by apply mult_canonical, J. assert (N1 : NoDup (map snd c1)) by (unfold c1; rewrite mult_snd; apply J).
    assert (Z1 : Forall (fun u => fst u <> C0) c1). { unfold c1, op_mult_coeffs. apply Forall_map. cbn [fst]. eapply Forall_impl; [|apply (jp_nonzero _ _ _ _ J)]. intros u Hu K. cbn beta in *. apply Cmul_integral in K. tauto. }
    assert (A1 : forall psi I, op_act c1 psi I = gen (flips X) (fun I => (t * a * k I)%R) psi I).
    { intros psi I. unfold c1. rewrite mult_act, (jp_act _ _ _ _ J), (st_act _ _ _ _ _ _ S), Ew. unfold gen. apply C_ext; cbn; ring. }
    assert (O1 : odd_under (flips X) (fun I => (t * a * k I)%R)) by (intros I; rewrite (st_odd _ _ _ _ _ _ S); ring).
    assert (SW : strict_weak term_less c1).
    { apply (support_weak c1 X (fun I => (t * a * k I)%R) C1' N1 Z1 (st_nodup _ _ _ _ _ _ S) A1 q0 (st_q0 _ _ _ _ _ _ S)). intros j Nj Nq. destruct (st_fix _ _ _ _ _ _ S j Nj Nq) as (b & Hb). exists b. intros I. rewrite Hb. destruct b; cbn [zsign]; ring. }
    destruct (HT term_less c1 SW) as (HPm & _). apply Permutation_sym in HPm. exists c1, (sort term_less c1). split; [|split].
    + rewrite mult_mult. exact F1.
    + unfold order_terms. rewrite F1. reflexivity.
    + set (c2 := sort term_less c1) in *. assert (C2 : canonical_op c2) by (eapply Forall_perm; [exact HPm|exact C1']). assert (N2 : NoDup (map snd c2)) by (eapply Permutation_NoDup; [apply Permutation_map, HPm|exact N1]). assert (Z2 : Forall (fun u => fst u <> C0) c2) by (eapply Forall_perm; [exact HPm|exact Z1]).
      assert (A2 : forall psi I, op_act c2 psi I = gen (flips X) (fun I => (t * a * k I)%R) psi I) by (intros psi I; rewrite <- (act_perm c1 c2 psi I HPm); apply A1).
      constructor; cbn [amp_ co_ up_ dn_].
      * intros z psi phi E. apply (strings_product c2 X _ z psi phi C2 N2 Z2 (st_nodup _ _ _ _ _ _ S) O1 A2) in E. apply act_multiple; [exact HE|]. apply (is_exp_op _ (gen (flips X) k)); [intros p I; symmetry; apply (st_act _ _ _ _ _ _ S)|].
        apply (is_exp_res _ _ _ (rot (flips X) (fun J => (z * t * a * k J)%R) psi)); [intros I; rewrite (E I); apply rot_ext; ring|]. apply gen_exp; [intros I; apply flips_twice, S|apply S].
      * apply Forall_forall. intros u Iu. apply (all_imaginary c2 X _ C2 N2 Z2 (st_nodup _ _ _ _ _ _ S) O1 A2 u Iu).
      * apply Forall_forall. intros u Iu. unfold canonical_op in C2. split; [rewrite Forall_forall in C2; now apply C2|]. intros Eu. pose proof (mask_mem c2 X _ C2 N2 Z2 (st_nodup _ _ _ _ _ _ S) A2 u) as M. rewrite Eu in M. pose proof (st_ne _ _ _ _ _ _ S) as NX. destruct X as [|x0 X']; [contradiction|]. apply (proj2 (M x0 Iu)). now left.
      * intros r FP FH. eapply Forall_perm; [exact HPm|]. unfold c1, op_mult_coeffs. apply Forall_map. cbn [snd]. apply (jp_reg _ _ _ _ J); assumption.
Qed.
Lemma children srt sort qe : legal_sort srt -> legal_term_sort sort -> forall items, Forall trotter_ok items -> forall s, exists pool' cs,
  foreach (map item_entry items) (fun term s => do r <- jw_transform srt qe (snd term); do child <- op_simplify true (op_mult_coeffs (snd r) (fst term)); do child <- order_terms sort child;
      Ok ((fst s ++ [(fst term, fst r)])%list, op_add_op (snd s) child)) s = Ok ((fst s ++ pool')%list, (snd s ++ concat cs)%list) /\ Forall2 (child_ok qe) items cs.
Proof.
  intros HS HT. induction 1 as [|x items Hx _ IH]; intros s; cbn [map foreach].
  - exists [], []. cbn [concat]. rewrite !app_nil_r. destruct s. split; [reflexivity|constructor].
  - destruct (one_child srt sort qe x HS HT Hx) as (o' & c & E1 & c1 & c2 & E2 & E3 & HC). unfold item_entry at 1 2 3. cbn [fst snd]. rewrite E1. cbn [bind fst snd]. rewrite E2. cbn [bind]. rewrite E3. cbn [bind].
    destruct (IH ((fst s ++ [(RtoC (amp_ x), o')])%list, op_add_op (snd s) c2)) as (pool' & cs & E & HF). exists ((RtoC (amp_ x), o') :: pool'), (c2 :: cs). split; [|now constructor].
    cbn [fst snd] in E. rewrite E. unfold op_add_op. cbn [concat]. now rewrite <- !app_assoc.
Qed.
Lemma nonempty_phase l : Forall (fun t => snd t <> []) l -> forall g p r, foreach l (fun t s => do r <- exponentiate_pauli_string (fst t) (snd t) false None false; Ok ((fst s ++ fst r)%list, (snd s * snd r)%C)) (g, p) = Ok r -> snd r = p.
Proof.
  induction 1 as [|[c P] l HP _ IH]; intros g p r E; cbn [foreach] in E; [injection E as <-; reflexivity|]. cbn [fst snd] in *.
  destruct (exponentiate_pauli_string c P false None false) as [[gs ph]|e] eqn:EX; cbn [bind fst snd] in E; [|discriminate]. apply IH in E. rewrite E.
  assert (Hp : ph = C1).
  { unfold exponentiate_pauli_string in EX. destruct (Rltb _ _); [discriminate|]. destruct P as [|g0 P]; [contradiction|]. destruct (foreach _ exp_step _) as [a|e]; cbn [bind] in EX; [|discriminate]. destruct (do t <- py_int (max_target a); py_gate3 "Rz" t t _) as [z|e]; cbn [bind] in EX; [|discriminate]. congruence. }
  rewrite Hp. ring.
Qed.
Lemma children_exp qe z items cs psi phi : Forall2 (child_ok qe) items cs -> exp_product (map (fun u => (RtoC z * fst u, circ_act (snd u))%C) (concat cs)) psi phi ->
  exp_product (map (fun x => (RtoC (z * amp_ x), act qe (Antihermitian (co_ x) (up_ x) (dn_ x)))) items) psi phi.
Proof.
  intros HF. revert psi. induction HF as [|x c items cs HC _ IH]; intros psi E; [exact E|]. cbn [concat] in E. rewrite map_app in E. apply exp_product_app in E. destruct E as (chi & E1 & E2). cbn [map exp_product]. exists chi. split; [now apply (ch_exp _ _ _ HC)|now apply IH].
Qed.
(** the product of the exponentials, each divided into m steps *)
Definition steps (qe : bool) (m : nat) (items : list item) : list (C * (state -> state)) :=
  concat (repeat (map (fun x => (RtoC (amp_ x / INR m), act qe (Antihermitian (co_ x) (up_ x) (dn_ x)))) items) m).
Lemma steps_exp qe m items cs : Forall2 (child_ok qe) items cs -> forall j psi phi,
  exp_product (concat (repeat (map (fun t => (C1 * fst t * RtoC (/ INR m), circ_act (snd t))%C) (concat cs)) j)) psi phi ->
  exp_product (concat (repeat (map (fun x => (RtoC (amp_ x / INR m), act qe (Antihermitian (co_ x) (up_ x) (dn_ x)))) items) j)) psi phi.
Proof.
  intros HF. induction j as [|j IH]; intros psi phi E; [exact E|]. cbn [repeat concat] in *. apply exp_product_app in E. destruct E as (chi & E1 & E2). apply exp_product_app. exists chi. split; [|now apply IH].
  rewrite (map_ext _ (fun u : C * list gate => (RtoC (/ INR m) * fst u, circ_act (snd u))%C)) in E1 by (intros u; f_equal; ring). apply (children_exp qe _ _ _ _ _ HF) in E1.
  rewrite (map_ext _ (fun x => (RtoC (amp_ x / INR m), act qe (Antihermitian (co_ x) (up_ x) (dn_ x))))) in E1; [exact E1|]. intros x. do 2 f_equal. unfold Rdiv. ring.
Qed.
Lemma children_all {Q : C * list gate -> Prop} qe items cs : Forall2 (child_ok qe) items cs -> (forall x c, child_ok qe x c -> Forall Q c) -> Forall Q (concat cs).
Proof. intros HF HQ. induction HF as [|x c items cs HC _ IH]; [constructor|]. cbn [concat]. apply Forall_app. split; [now apply (HQ x)|exact IH]. Qed.
Lemma trotter_items srt sort qe m items : legal_sort srt -> legal_term_sort sort -> 1 <= m -> Forall trotter_ok items ->
  exists U, ansatz_of_pool srt sort false qe m (map item_entry items) = Ok U /\ Forall library_gate U /\ forall psi, exp_product (steps qe m items) psi (circ_act U psi).
Proof.
  intros HS HT Hm HI. unfold ansatz_of_pool, get_qubit_operator. cbn [String.eqb Ascii.eqb Bool.eqb].
  destruct (children srt sort qe HS HT items HI ([], [])) as (pool' & cs & E & HF). rewrite E. cbn [bind fst snd app].
  assert (HO : Forall (fun t => Re (C1 * fst t)%C = 0%R /\ Word (snd t) /\ (snd t = [] \/ support (snd t) <> [])) (concat cs)).
  { apply (children_all qe items cs HF). intros x c HC. pose proof (ch_im _ _ _ HC) as H1. pose proof (ch_word _ _ _ HC) as H2. rewrite Forall_forall in *. intros u Iu. destruct (H2 u Iu) as ((HP & HN) & Ne). split; [replace (C1 * fst u)%C with (fst u) by ring; now apply H1|].
    assert (FI : filter (fun g => negb (String.eqb (glabel g) "I")) (snd u) = snd u).
    { clear - HP. induction HP as [|g l Hg _ IH]; [reflexivity|]. cbn [filter]. rewrite IH. destruct (pauli_label_cases _ (proj1 Hg)) as [-> |[-> | ->]]; reflexivity. }
    split; [split|].
    - eapply Forall_impl; [|exact HP]. intros g Hg. exists (glabel g), (gtarget g). split; [|exact (proj2 Hg)]. destruct (pauli_label_cases _ (proj1 Hg)) as [-> |[-> | ->]]; cbn; tauto.
    - rewrite FI. now apply increasing_nodup.
    - right. unfold support. rewrite FI. destruct (snd u); [contradiction|discriminate]. }
  destruct (C39_trotterize (concat cs) C1 m Hm HO) as (gs & phase & ET & LG & HX & _). rewrite ET. cbn [bind fst snd].
  assert (HP1 : phase = C1).
  { unfold trotterize in ET. rewrite trotter_scaled in ET by exact Hm. unfold exp_terms in ET. apply nonempty_phase in ET; [exact ET|]. unfold scaled. apply Forall_concat. apply Forall_forall. intros l Il. apply repeat_spec in Il. subst l. apply Forall_map. cbn [snd].
    apply (children_all qe items cs HF). intros x c HC. eapply Forall_impl; [|exact (ch_word _ _ _ HC)]. intros u Hu. apply Hu. }
  subst phase. destruct (Ceq_dec C1 C1) as [_|K]; [|contradiction]. exists gs. split; [reflexivity|]. split; [exact LG|]. intros psi. specialize (HX psi). unfold trotter_factors in HX. apply (steps_exp qe m items cs HF m) in HX. unfold steps.
  replace (circ_act gs psi) with (sscale C1 (circ_act gs psi)); [exact HX|]. extensionality I. unfold sscale. ring.
Qed.
