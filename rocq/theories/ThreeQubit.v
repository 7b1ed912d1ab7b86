(** Circuits on three distinct qubits, evaluated on the eight amplitudes that agree outside
    these qubits. *)
From Coq Require Import Reals String List Arith Lia Bool Lra.
From Verif Require Import CBase Result Bits Spec GateModel ComputerModel SafeProofs GateProofs LibProofs PauliProofs GateEval PyModel.
Import ListNotations.
Local Open Scope C_scope.

Section Three.
Variables (i j k : nat).
Hypothesis (Hij : i <> j) (Hik : i <> k) (Hjk : j <> k).
Definition cst (I : nat) (psi : state) (a b c : bool) : C := psi (upd (upd (upd I i a) j b) k c).
Local Notation U I a b c := (upd (upd (upd I i a) j b) k c).
Lemma bi_ I a b c : bit (U I a b c) i = a.
Proof. rewrite (bit_upd_other _ k), (bit_upd_other _ j), bit_upd_same; auto. Qed.
Lemma bj_ I a b c : bit (U I a b c) j = b.
Proof. rewrite bit_upd_other, bit_upd_same; auto. Qed.
Lemma bk_ I a b c : bit (U I a b c) k = c.
Proof. apply bit_upd_same. Qed.
Lemma ui_ I a b c x : upd (U I a b c) i x = U I x b c.
Proof. rewrite (upd_comm _ k), (upd_comm _ j), upd_upd by auto. reflexivity. Qed.
Lemma uj_ I a b c x : upd (U I a b c) j x = U I a x c.
Proof. rewrite (upd_comm _ k), upd_upd by auto. reflexivity. Qed.
Lemma uk_ I a b c x : upd (U I a b c) k x = U I a b x.
Proof. apply upd_upd. Qed.
Lemma c1i m I psi a b c : cst I (act1 m i psi) a b c = m (b2n a) 0%nat * cst I psi false b c + m (b2n a) 1%nat * cst I psi true b c.
Proof. unfold cst, act1. rewrite bi_, !ui_. reflexivity. Qed.
Lemma c1j m I psi a b c : cst I (act1 m j psi) a b c = m (b2n b) 0%nat * cst I psi a false c + m (b2n b) 1%nat * cst I psi a true c.
Proof. unfold cst, act1. rewrite bj_, !uj_. reflexivity. Qed.
Lemma c1k m I psi a b c : cst I (act1 m k psi) a b c = m (b2n c) 0%nat * cst I psi a b false + m (b2n c) 1%nat * cst I psi a b true.
Proof. unfold cst, act1. rewrite bk_, !uk_. reflexivity. Qed.
Lemma cXji I psi a b c : cst I (act2 m_cX j i psi) a b c = cst I psi a (xorb a b) c.
Proof. unfold cst. rewrite ev_cX, bi_, flip_upd, bj_, uj_ by auto. destruct a, b; reflexivity. Qed.
Lemma cXki I psi a b c : cst I (act2 m_cX k i psi) a b c = cst I psi a b (xorb a c).
Proof. unfold cst. rewrite ev_cX, bi_, flip_upd, bk_, uk_ by auto. destruct a, c; reflexivity. Qed.
Lemma cXkj I psi a b c : cst I (act2 m_cX k j psi) a b c = cst I psi a b (xorb b c).
Proof. unfold cst. rewrite ev_cX, bj_, flip_upd, bk_, uk_ by auto. destruct b, c; reflexivity. Qed.
Lemma cXjk I psi a b c : cst I (act2 m_cX j k psi) a b c = cst I psi a (xorb c b) c.
Proof. unfold cst. rewrite ev_cX, bk_, flip_upd, bj_, uj_ by auto. destruct c, b; reflexivity. Qed.
Lemma c2kj m I psi a b c : cst I (act2 m k j psi) a b c =
  m (2 * b2n b + b2n c)%nat 0%nat * cst I psi a false false + m (2 * b2n b + b2n c)%nat 1%nat * cst I psi a false true
  + m (2 * b2n b + b2n c)%nat 2%nat * cst I psi a true false + m (2 * b2n b + b2n c)%nat 3%nat * cst I psi a true true.
Proof. unfold cst, act2. rewrite bj_, bk_, !uj_, !uk_. reflexivity. Qed.
Lemma c2ki m I psi a b c : cst I (act2 m k i psi) a b c =
  m (2 * b2n a + b2n c)%nat 0%nat * cst I psi false b false + m (2 * b2n a + b2n c)%nat 1%nat * cst I psi false b true
  + m (2 * b2n a + b2n c)%nat 2%nat * cst I psi true b false + m (2 * b2n a + b2n c)%nat 3%nat * cst I psi true b true.
Proof. unfold cst, act2. rewrite bi_, bk_, !ui_, !uk_. reflexivity. Qed.
Definition w8 : C := RtoC rsqrt2 * (C1 + Ci).
Definition ph (w : C) (b : bool) : C := if b then w else C1.
Lemma cTi I psi a b c : cst I (act1 m_T i psi) a b c = ph w8 a * cst I psi a b c.
Proof. rewrite c1i. unfold m_T, mk44, ph, w8. fold rsqrt2. destruct a; cbn [nth b2n]; ring. Qed.
Lemma cTj I psi a b c : cst I (act1 m_T j psi) a b c = ph w8 b * cst I psi a b c.
Proof. rewrite c1j. unfold m_T, mk44, ph, w8. fold rsqrt2. destruct b; cbn [nth b2n]; ring. Qed.
Lemma cTk I psi a b c : cst I (act1 m_T k psi) a b c = ph w8 c * cst I psi a b c.
Proof. rewrite c1k. unfold m_T, mk44, ph, w8. fold rsqrt2. destruct c; cbn [nth b2n]; ring. Qed.
Lemma cDj I psi a b c : cst I (act1 (madj m_T) j psi) a b c = ph (Cconj w8) b * cst I psi a b c.
Proof. rewrite c1j. unfold madj, m_T, mk44, ph, w8. fold rsqrt2. destruct b; cbn [nth b2n]; rewrite ?Cconj_C0, ?Cconj_C1; ring. Qed.
Lemma cDk I psi a b c : cst I (act1 (madj m_T) k psi) a b c = ph (Cconj w8) c * cst I psi a b c.
Proof. rewrite c1k. unfold madj, m_T, mk44, ph, w8. fold rsqrt2. destruct c; cbn [nth b2n]; rewrite ?Cconj_C0, ?Cconj_C1; ring. Qed.
Lemma cHk I psi a b c : cst I (act1 m_H k psi) a b c = RtoC rsqrt2 * (cst I psi a b false + sgn c * cst I psi a b true).
Proof. rewrite c1k. unfold m_H, mk44, sgn. fold rsqrt2. destruct c; cbn [nth b2n]; ring. Qed.
Lemma cst_id I psi : psi I = cst I psi (bit I i) (bit I j) (bit I k).
Proof. unfold cst. rewrite !upd_id. reflexivity. Qed.
End Three.

Lemma adj_act1 g psi : library_gate g -> gtarget g = gcontrol g -> gate_act (gate_adjoint g) psi == act1 (madj (gmat g)) (gtarget g) psi.
Proof.
  intros HL E. destruct (adjoint_qubits g) as [E1 E2]. unfold gate_act. rewrite E1, E2, E, Nat.eqb_refl.
  apply act1_meq. apply (meq_le 2 4); [lia|]. apply adjoint_matrix, HL.
Qed.
Lemma adj_act2 g psi : library_gate g -> gtarget g <> gcontrol g -> gate_act (gate_adjoint g) psi == act2 (madj (gmat g)) (gtarget g) (gcontrol g) psi.
Proof.
  intros HL E. destruct (adjoint_qubits g) as [E1 E2]. unfold gate_act. rewrite E1, E2. apply Nat.eqb_neq in E. rewrite E.
  apply act2_meq. apply adjoint_matrix, HL.
Qed.
Lemma neq_eqb (a b : nat) : a <> b -> Nat.eqb a b = false.
Proof. apply Nat.eqb_neq. Qed.

(** gates as the Python function returns them *)
Lemma pyT t : py_gate2 "T" t t = Ok (mkGate "T" t t m_T None).
Proof. unfold py_gate2, make_gate. rewrite Nat.eqb_refl. reflexivity. Qed.
Lemma pyH t : py_gate2 "H" t t = Ok (mkGate "H" t t m_H None).
Proof. unfold py_gate2, make_gate. rewrite Nat.eqb_refl. reflexivity. Qed.
Lemma pycX t c : t <> c -> py_gate2 "cX" t c = Ok (mkGate "cX" t c m_cX None).
Proof. intros H. unfold py_gate2, make_gate. rewrite (neq_eqb _ _ H). reflexivity. Qed.
Lemma pycV t c : t <> c -> py_gate2 "cV" t c = Ok (mkGate "cV" t c m_cV None).
Proof. intros H. unfold py_gate2, make_gate. rewrite (neq_eqb _ _ H). reflexivity. Qed.
Lemma py_lib type t c g : py_gate2 type t c = Ok g -> library_gate g.
Proof.
  unfold py_gate2. intros H. destruct (existsb _ _) in H; [eapply lib_make; exact H|]. destruct (_ && _) in H; [eapply lib_make; exact H|discriminate].
Qed.

Lemma act_1 l t m p psi : gate_act (mkGate l t t m p) psi = act1 m t psi.
Proof. unfold gate_act. cbn [gtarget gcontrol gmat]. rewrite Nat.eqb_refl. reflexivity. Qed.
Lemma act_2 l t c m p psi : t <> c -> gate_act (mkGate l t c m p) psi = act2 m t c psi.
Proof. intros H. unfold gate_act. cbn [gtarget gcontrol gmat]. rewrite (neq_eqb _ _ H). reflexivity. Qed.

Ltac csolve_w := apply C_ext; cbn [Re Im RtoC Cmul Cadd Cconj Cneg C1 C0 Ci]; nra.
Lemma three_consts : w8 * Cconj w8 = C1 /\ w8 * w8 = Ci /\ Cconj w8 * Cconj w8 = - Ci /\ Ci * Ci = - C1 /\ RtoC rsqrt2 * RtoC rsqrt2 = RtoC (/ 2).
Proof. unfold w8; pose proof rsqrt2_sq as Hr; repeat split; csolve_w. Qed.
Lemma half_double x : x = RtoC (/ 2) * (x + x).
Proof. apply C_ext; cbn [Re Im RtoC Cmul Cadd]; lra. Qed.
(** a circuit against a list of state maps *)
Fixpoint runs (gs : list gate) (fs : list (state -> state)) : Prop :=
  match gs, fs with
  | [], [] => True
  | g :: gs, f :: fs => (forall psi, gate_act g psi == f psi) /\ (forall a b, a == b -> f a == f b) /\ runs gs fs
  | _, _ => False
  end.
Lemma runs_act gs : forall fs psi, runs gs fs -> circ_act gs psi == fold_left (fun s f => f s) fs psi.
Proof.
  induction gs as [|g gs IH]; intros [|f fs] psi H; cbn [runs] in H; try contradiction; [intros I; reflexivity|].
  destruct H as (A & _ & B). rewrite circ_act_cons. cbn [fold_left]. eapply seq_trans; [apply circ_act_ext, A|]. apply IH, B.
Qed.
Lemma act1_ext' m t a b : a == b -> act1 m t a == act1 m t b.
Proof. intros H I. unfold act1. rewrite !H. reflexivity. Qed.
Lemma act2_ext' m t c a b : a == b -> act2 m t c a == act2 m t c b.
Proof. intros H I. unfold act2. rewrite !H. reflexivity. Qed.

Lemma toffoli_act i j k : i <> j -> i <> k -> j <> k -> exists gs, Toffoli i j k = Ok gs /\ Forall library_gate gs /\
  forall psi I, circ_act gs psi I = psi (if bit I i && bit I j then flip I k else I).
Proof.
  intros Hij Hik Hjk. unfold Toffoli. rewrite !pyT, pyH, !pycX by auto. cbn [bind]. eexists. split; [reflexivity|]. split.
  { assert (HL : forall t, library_gate (mkGate "T" t t m_T None)) by (intros; eapply py_lib, pyT).
    assert (HH : forall t, library_gate (mkGate "H" t t m_H None)) by (intros; eapply py_lib, pyH).
    assert (HX : forall t c, t <> c -> library_gate (mkGate "cX" t c m_cX None)) by (intros; eapply py_lib, pycX; auto).
    repeat (apply Forall_cons; [try apply lib_adjoint; auto|]). constructor. }
  intros psi I.
  set (cXk := act2 m_cX k). set (Td := act1 (madj m_T)).
  rewrite (runs_act _ [act1 m_H k; cXk j; Td k; cXk i; act1 m_T k; cXk j; Td k; cXk i; act1 m_T j; act1 m_T k; act2 m_cX j i; act1 m_H k; act1 m_T i; Td j; act2 m_cX j i] psi).
  2:{ subst cXk Td. cbn [runs].
      repeat (split; [intros phi; first [ (eapply seq_trans; [apply adj_act1; [eapply py_lib, pyT|reflexivity]|]; intros J; reflexivity)
                                       | rewrite act_1; intros J; reflexivity | rewrite act_2 by auto; intros J; reflexivity ]
                     | split; [first [apply act1_ext' | apply act2_ext']|]]). exact Logic.I. }
  cbn [fold_left]. subst cXk Td. cbv beta.
  rewrite (cst_id i j k). set (a := bit I i). set (b := bit I j). set (c := bit I k).
  replace (psi (if a && b then flip I k else I)) with (cst i j k I psi a b (xorb (a && b) c)).
  2:{ unfold cst. subst a b. rewrite !upd_id. f_equal. rewrite flip_upd. fold c. destruct (bit I i && bit I j); [destruct c; reflexivity|]. destruct c eqn:Ec; apply upd_id'; exact Ec. }
  clearbody a b c.
  repeat first [rewrite cTi by auto | rewrite cTj by auto | rewrite cTk by auto | rewrite cDj by auto | rewrite cDk by auto | rewrite cHk by auto
    | rewrite cXji by auto | rewrite cXki by auto | rewrite cXkj by auto].
  destruct three_consts as (W1 & W2 & W3 & W4 & R2). revert W1 W2 W3 R2.
  generalize w8 as w, (Cconj w8) as v, (RtoC rsqrt2) as h. intros w v h W1 W2 W3 R2.
  destruct a, b, c; cbn [xorb ph sgn andb];
  match goal with |- _ = ?x => transitivity (RtoC (/ 2) * (x + x)); [|symmetry; apply half_double] end; revert R2; generalize (RtoC (/ 2)) as hf; intros hf R2;
  ring [W1 W2 W3 W4 R2].
Qed.

Section ThreeV.
Variables (i j k : nat).
Hypothesis (Hij : i <> j) (Hik : i <> k) (Hjk : j <> k).
Definition va : C := mkC 0.5 0.5.
Definition vb : C := mkC 0.5 (-0.5).
Lemma cVkj I psi a b c : cst i j k I (act2 m_cV k j psi) a b c = if b then va * cst i j k I psi a b c + vb * cst i j k I psi a b (negb c) else cst i j k I psi a b c.
Proof. rewrite c2kj by auto. unfold m_cV, mk44. fold va vb. destruct b, c; cbn [b2n nth Nat.mul Nat.add negb]; ring. Qed.
Lemma cVki I psi a b c : cst i j k I (act2 m_cV k i psi) a b c = if a then va * cst i j k I psi a b c + vb * cst i j k I psi a b (negb c) else cst i j k I psi a b c.
Proof. rewrite c2ki by auto. unfold m_cV, mk44. fold va vb. destruct a, c; cbn [b2n nth Nat.mul Nat.add negb]; ring. Qed.
Lemma cVDkj I psi a b c : cst i j k I (act2 (madj m_cV) k j psi) a b c = if b then vb * cst i j k I psi a b c + va * cst i j k I psi a b (negb c) else cst i j k I psi a b c.
Proof.
  rewrite c2kj by auto. unfold madj, m_cV, mk44. fold va vb.
  assert (E1 : Cconj va = vb) by (unfold va, vb, Cconj; cbn [Re Im]; f_equal; lra). assert (E2 : Cconj vb = va) by (unfold va, vb, Cconj; cbn [Re Im]; f_equal; lra).
  destruct b, c; cbn [b2n nth Nat.mul Nat.add negb]; rewrite ?E1, ?E2, ?Cconj_C0, ?Cconj_C1; ring.
Qed.
End ThreeV.
Lemma fredkin_act i j k : i <> j -> i <> k -> j <> k -> exists gs, Fredkin i j k = Ok gs /\ Forall library_gate gs /\
  forall psi I, circ_act gs psi I = psi (if bit I i then swapbits I j k else I).
Proof.
  intros Hij Hik Hjk. unfold Fredkin. rewrite !pycX, !pycV by auto. cbn [bind]. eexists. split; [reflexivity|]. split.
  { assert (HH : forall t c, t <> c -> library_gate (mkGate "cV" t c m_cV None)) by (intros; eapply py_lib, pycV; auto).
    assert (HX : forall t c, t <> c -> library_gate (mkGate "cX" t c m_cX None)) by (intros; eapply py_lib, pycX; auto).
    repeat (apply Forall_cons; [try apply lib_adjoint; auto|]). constructor. }
  intros psi I.
  rewrite (runs_act _ [act2 m_cX j k; act2 m_cV k j; act2 m_cV k i; act2 m_cX j i; act2 (madj m_cV) k j; act2 m_cX j k; act2 m_cX j i] psi).
  2:{ cbn [runs].
      repeat (split; [intros phi; first [ (eapply seq_trans; [apply adj_act2; [eapply py_lib, pycV; auto|cbn; auto]|]; intros J; reflexivity)
                                       | rewrite act_2 by auto; intros J; reflexivity ]
                     | split; [apply act2_ext'|]]). exact Logic.I. }
  cbn [fold_left]. cbv beta.
  rewrite (cst_id i j k). set (a := bit I i). set (b := bit I j). set (c := bit I k).
  replace (psi (if a then swapbits I j k else I)) with (cst i j k I psi a (if a then c else b) (if a then b else c)).
  2:{ unfold cst. subst a b c. destruct (bit I i) eqn:E; [rewrite (upd_id' I i true E); reflexivity|rewrite (upd_id' I i false E), !upd_id; reflexivity]. }
  clearbody a b c.
  repeat first [rewrite cVkj by auto | rewrite cVki by auto | rewrite cVDkj by auto | rewrite cXji by auto | rewrite cXjk by auto].
  assert (V1 : va * va = RtoC (/ 2) * Ci) by (unfold va; csolve_w).
  assert (V2 : vb * vb = - (RtoC (/ 2) * Ci)) by (unfold vb; csolve_w).
  assert (V3 : va * vb = RtoC (/ 2)) by (unfold va, vb; csolve_w). revert V1 V2 V3. generalize va vb; intros u v V1 V2 V3.
  destruct a, b, c; cbn [xorb negb];
  match goal with |- _ = ?x => transitivity (RtoC (/ 2) * (x + x)); [|symmetry; apply half_double] end.
  all: first [apply half_double | ring [V1 V2 V3]].
Qed.
