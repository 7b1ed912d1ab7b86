(** The matrices of make_gate are the textbook ones (Textbook.v). *)
From Coq Require Import Reals String List Arith Lia Bool Lra.
From Verif Require Import CBase Result Bits Spec GateModel GateProofs LibProofs ComputerModel ApplyProofs CleanProofs SimProofs Textbook.
Import ListNotations.
Local Open Scope C_scope.

Lemma cis_quarter : Ccis (PI / 4) = (RtoC (1 / sqrt 2) * (C1 + Ci))%C.
Proof. csolve; rewrite ?cos_PI4, ?sin_PI4; ring. Qed.
Lemma cis_half : Ccis (PI / 2) = Ci.
Proof. unfold Ccis. rewrite cos_PI2, sin_PI2. reflexivity. Qed.
Lemma half_eq x : (0.5 * x = x / 2)%R. Proof. lra. Qed.
Lemma sq2_sq : (1 / sqrt 2 * (1 / sqrt 2) = 1 / 2)%R.
Proof. replace (1 / sqrt 2 * (1 / sqrt 2))%R with (1 / (sqrt 2 * sqrt 2))%R by (field; apply Rgt_not_eq, Rlt_sqrt2_0 || (apply Rgt_not_eq; apply sqrt_lt_R0; lra)). rewrite sqrt_sqrt by lra. reflexivity. Qed.
Lemma quarter (x : R) : (PI / 2 / 2 = PI / 4)%R. Proof. lra. Qed.
Ltac inl H := injection H as <-; cbn [gmat].
Ltac bits := intros a b; destruct a, b.
Ltac tb := cbn [b2n nth mk44 same PX PY PZ phase rot Bool.eqb negb andb];
  unfold same, PX, PY, PZ, phase, rot; cbn [Bool.eqb negb]; unfold same; cbn [Bool.eqb negb].

Definition elem (m : mat) (a b : bool) : C := m (b2n a) (b2n b).
Lemma V_elem a b : elem m_V a b = Ccis (PI / 4) * rot PX (PI / 2) a b.
Proof.
  assert (E : (PI / 2 / 2 = PI / 4)%R) by lra.
  pose proof sq2_sq as S. unfold elem, m_V, mk44, rot, PX, same. rewrite E, cos_PI4, sin_PI4. unfold Ccis. rewrite cos_PI4, sin_PI4.
  destruct a, b; cbn [b2n nth Bool.eqb negb]; csolve; rewrite ?Rmult_0_r, ?Rmult_0_l; ring_simplify; rewrite ?Rmult_0_r, ?Rmult_0_l; 
   try (replace ((1 / sqrt 2) ^ 2)%R with (1/2)%R by (rewrite <- S; ring); lra); lra.
Qed.
Lemma make_textbook1 type t x g : make_gate type t t x = Ok g ->
  exists U, textbook1 type x = Some U /\ forall a b, gmat g (b2n a) (b2n b) = U a b.
Proof.
  intros H. unfold make_gate in H. rewrite Nat.eqb_refl in H. unfold textbook1.
  repeat match type of H with
  | (if String.eqb type ?l then _ else _) = _ =>
      destruct (String.eqb_spec type l) as [->|]; [cbn [String.eqb Ascii.eqb Bool.eqb]; eexists; split; [reflexivity|]; inl H|]
  end; [..|discriminate].
  - bits; reflexivity.
  - bits; reflexivity.
  - bits; tb; csolve.
  - bits; tb; unfold m_H, mk44; cbn [b2n nth]; unfold Rdiv; rewrite Rmult_1_l; ring.
  - rewrite m_R_norm. bits; tb; unfold m_R, mk44; cbn [b2n nth]; ring.
  - rewrite m_Rx_norm. bits; tb; unfold m_Rx, mk44; cbn [b2n nth]; rewrite ?half_eq; ring.
  - rewrite m_Ry_norm. bits; tb; unfold m_Ry, mk44; cbn [b2n nth]; rewrite ?half_eq; csolve.
  - rewrite m_Rz_norm. bits; tb; unfold m_Rz, mk44; cbn [b2n nth]; rewrite ?half_eq; unfold Ccis; rewrite ?cos_neg, ?sin_neg; csolve.
  - bits; apply V_elem.
  - bits; tb; rewrite ?cis_half; unfold m_S, mk44; cbn [b2n nth]; ring.
  - bits; tb; rewrite ?cis_quarter; unfold m_T, mk44; cbn [b2n nth]; ring.
  - bits; reflexivity.
Qed.

Ltac bits4 := intros ac at_ bc bt; destruct ac, at_, bc, bt.
Ltac tb2 := unfold when; tb; cbn [Nat.mul Nat.add].
Lemma make_textbook2 type t c x g : t <> c -> make_gate type t c x = Ok g ->
  exists U, textbook2 type x = Some U /\
    forall ac at_ bc bt, gmat g (2 * b2n ac + b2n at_)%nat (2 * b2n bc + b2n bt)%nat = U ac at_ bc bt.
Proof.
  intros N H. unfold make_gate in H. rewrite (proj2 (Nat.eqb_neq t c) N) in H. unfold textbook2.
  repeat match type of H with
  | (if String.eqb type ?l then _ else _) = _ =>
      destruct (String.eqb_spec type l) as [->|]; [cbn [String.eqb Ascii.eqb Bool.eqb]; eexists; split; [reflexivity|]; inl H|]
  | (if (String.eqb type ?l || _)%bool then _ else _) = _ =>
      destruct (String.eqb_spec type l) as [->|]; [cbn [orb] in H; cbn [String.eqb Ascii.eqb Bool.eqb]; eexists; split; [reflexivity|]; inl H|rewrite orb_false_l in H]
  end; [..|discriminate].
  - rewrite m_A_norm. bits4; tb2; unfold m_A, mk44; cbn [b2n nth Nat.add Nat.mul]; ring.
  - bits4; tb2; unfold m_cX, mk44; cbn [b2n nth Nat.add Nat.mul]; ring.
  - bits4; tb2; unfold m_cX, mk44; cbn [b2n nth Nat.add Nat.mul]; ring.
  - bits4; tb2; unfold m_acX, mk44; cbn [b2n nth Nat.add Nat.mul]; ring.
  - bits4; tb2; unfold m_acX, mk44; cbn [b2n nth Nat.add Nat.mul]; ring.
  - bits4; tb2; unfold m_cY, mk44; cbn [b2n nth Nat.add Nat.mul]; ring.
  - bits4; tb2; unfold m_cZ, mk44; cbn [b2n nth Nat.add Nat.mul]; ring.
  - rewrite m_cR_norm. bits4; tb2; unfold m_cR, mk44; cbn [b2n nth Nat.add Nat.mul]; ring.
  - intros ac at_ bc bt. unfold when. rewrite <- V_elem. revert ac at_ bc bt.
    bits4; unfold same, elem; cbn [Bool.eqb]; unfold m_cV, m_V, mk44; cbn [b2n nth Nat.add Nat.mul]; ring.
  - rewrite m_cRz_norm. bits4; tb2; unfold m_cRz, mk44; cbn [b2n nth Nat.add Nat.mul]; rewrite ?half_eq; unfold Ccis; rewrite ?cos_neg, ?sin_neg; csolve.
  - bits4; tb2; unfold m_SWAP, mk44; cbn [b2n nth Nat.add Nat.mul]; ring.
Qed.

(** ** the simulator applies the textbook gate *)
Lemma one_qubit_textbook type t x g q : make_gate type t t x = Ok g -> sharp g -> wf_computer q -> (t < nqubit q)%nat ->
  exists U q', textbook1 type x = Some U /\ apply_gate q g = Ok q' /\ nqubit q' = nqubit q /\
    forall I, amp (coeff q') I = U (bit I t) false * amp (coeff q) (upd I t false) + U (bit I t) true * amp (coeff q) (upd I t true).
Proof.
  intros H HS W L. destruct (make_textbook1 _ _ _ _ H) as (U & EU & HU).
  destruct (make_gate_std _ _ _ _ _ H) as (p & _ & _ & Et & Ec).
  destruct (one_qubit_action q g W (lib_make _ _ _ _ _ H) HS) as (q' & A & N & _ & B & _); [congruence|rewrite Et; exact L|].
  exists U, q'. split; [exact EU|]. split; [exact A|]. split; [exact N|]. intros I. rewrite B, Et. unfold act1.
  change 0%nat with (b2n false) at 1. change 1%nat with (b2n true) at 1. rewrite !HU. reflexivity.
Qed.
Lemma two_qubit_textbook type t c x g q : t <> c -> make_gate type t c x = Ok g -> sharp g -> wf_computer q -> (t < nqubit q)%nat -> (c < nqubit q)%nat ->
  exists U q', textbook2 type x = Some U /\ apply_gate q g = Ok q' /\ nqubit q' = nqubit q /\
    forall I, amp (coeff q') I =
      U (bit I c) (bit I t) false false * amp (coeff q) (upd (upd I c false) t false)
    + U (bit I c) (bit I t) false true * amp (coeff q) (upd (upd I c false) t true)
    + U (bit I c) (bit I t) true false * amp (coeff q) (upd (upd I c true) t false)
    + U (bit I c) (bit I t) true true * amp (coeff q) (upd (upd I c true) t true).
Proof.
  intros N H HS W L1 L2. destruct (make_textbook2 _ _ _ _ _ N H) as (U & EU & HU).
  destruct (make_gate_std _ _ _ _ _ H) as (p & _ & _ & Et & Ec).
  destruct (two_qubit_action q g W (lib_make _ _ _ _ _ H) HS) as (q' & A & NN & _ & B & _); [congruence|rewrite Et; exact L1|rewrite Ec; exact L2|].
  exists U, q'. split; [exact EU|]. split; [exact A|]. split; [exact NN|]. intros I. rewrite B, Et, Ec. unfold act2.
  rewrite <- !HU. reflexivity.
Qed.
(** control_gate: U on the target qubit when the control is set, nothing otherwise *)
Lemma control_gate_act c U g psi I : gnqubits U = 1%nat -> make_control_gate c U = Ok g ->
  gtarget g = gtarget U /\ gcontrol g = c /\
  gate_act g psi I = if bit I c then gate_act U psi I else psi I.
Proof.
  intros HN H. unfold make_control_gate in H. destruct (Nat.eqb_spec (gtarget U) c) as [E|E]; [discriminate|]. injection H as <-.
  cbn [gtarget gcontrol]. split; [reflexivity|]. split; [reflexivity|].
  unfold gate_act. cbn [gtarget gcontrol gmat]. rewrite (proj2 (Nat.eqb_neq _ _) E).
  unfold gnqubits in HN. destruct (Nat.eqb_spec (gtarget U) (gcontrol U)) as [E2|E2]; [|discriminate].
  unfold act2, act1, mk44. destruct (bit I c) eqn:EC, (bit I (gtarget U)) eqn:ET; cbn [b2n nth Nat.mul Nat.add];
  rewrite ?(upd_id' I c _ EC), ?(upd_id' I (gtarget U) _ ET); ring.
Qed.
