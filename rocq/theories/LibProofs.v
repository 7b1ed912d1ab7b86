(** Library gates: shape, adjoint, unitarity, cleanliness. *)
From Coq Require Import Reals String Ascii List Arith Lia Bool Lra ZArith FunctionalExtensionality Permutation.
From Verif Require Import CBase Result Bits Spec GateModel ComputerModel ApplyProofs SafeProofs GateProofs.
Import ListNotations.
Local Open Scope R_scope.
Local Open Scope string_scope.

(** matrix of a gate type with parameter *)
Definition type_mat (ty : gtype) (p : R) : mat :=
  match ty with
  | TX => m_X | TY => m_Y | TZ => m_Z | TH => m_H | TR => m_R p | TRx => m_Rx p | TRy => m_Ry p
  | TRz => m_Rz p | TV => m_V | TadjV => madj m_V | TS => m_S | TT => m_T | TI => m_I
  | TA => m_A p | TcX => m_cX | TacX => m_acX | TcY => m_cY | TcZ => m_cZ | TcR => m_cR p
  | TcV => m_cV | TadjcV => madj m_cV | TcRz => m_cRz p | TSWAP => m_SWAP
  | TUndefined => fun _ _ => C0
  end.
Definition type_param (ty : gtype) : bool :=
  match ty with TR | TRx | TRy | TRz | TA | TcR | TcRz => true | _ => false end.
Definition type_1q (ty : gtype) : bool :=
  match ty with
  | TX | TY | TZ | TH | TR | TRx | TRy | TRz | TV | TadjV | TS | TT | TI => true | _ => false end.
Definition ctrl4 (m : mat) : mat :=
  mk44 [[C1; C0; C0; C0]; [C0; C1; C0; C0];
        [C0; C0; m 0%nat 0%nat; m 0%nat 1%nat]; [C0; C0; m 1%nat 0%nat; m 1%nat 1%nat]].
Definition std_param (ty : gtype) (p : R) : option (R * bool) :=
  if type_param ty then Some (p, negb (gtype_eqb ty TA)) else None.

Record std_gate (ty : gtype) (p : R) (g : gate) : Prop := {
  sg_type : gate_type g = ty;
  sg_def : ty <> TUndefined;
  sg_mat : gmat g = type_mat ty p;
  sg_param : gparam g = std_param ty p;
  sg_q : Nat.eqb (gtarget g) (gcontrol g) = type_1q ty
}.

Lemma gtype_eqb_spec a b : reflect (a = b) (gtype_eqb a b).
Proof. destruct a, b; constructor; congruence. Qed.
Lemma gtype_eqb_refl a : gtype_eqb a a = true.
Proof. destruct a; reflexivity. Qed.

(** matrices supported on 4x4 *)
Definition supp4 (m : mat) : Prop := forall i j, (4 <= i \/ 4 <= j)%nat -> m i j = C0.
Lemma mat4_ext a b : supp4 a -> supp4 b -> meq 4 a b -> a = b.
Proof.
  intros Ha Hb H. apply functional_extensionality; intros i; apply functional_extensionality; intros j.
  destruct (Nat.lt_ge_cases i 4); [destruct (Nat.lt_ge_cases j 4)|].
  - apply H; assumption.
  - rewrite Ha, Hb by (right; assumption). reflexivity.
  - rewrite Ha, Hb by (left; assumption). reflexivity.
Qed.
Lemma supp4_mk44 rows : (length rows <= 4)%nat -> Forall (fun r => length r <= 4)%nat rows -> supp4 (mk44 rows).
Proof.
  intros H1 H2 i j [H|H].
  - apply mk44_ge_row; lia.
  - unfold mk44. destruct (Nat.lt_ge_cases i (length rows)) as [L|L].
    + apply nth_overflow. rewrite Forall_forall in H2. specialize (H2 _ (nth_In rows [] L)). lia.
    + rewrite (nth_overflow rows) by exact L. destruct j; reflexivity.
Qed.
Lemma supp4_madj m : supp4 m -> supp4 (madj m).
Proof. intros H i j Hij. unfold madj. rewrite H by tauto. apply Cconj_C0. Qed.
Lemma supp4_type ty p : supp4 (type_mat ty p).
Proof.
  destruct ty; cbn [type_mat]; try (apply supp4_madj); try (apply supp4_mk44; simpl; [lia|repeat constructor]).
  intros i j _; reflexivity.
Qed.
Lemma supp4_ctrl4 m : supp4 (ctrl4 m).
Proof. apply supp4_mk44; simpl; [lia|repeat constructor]. Qed.

Ltac mat_ext :=
  apply mat4_ext; [first [apply supp4_madj|idtac]; apply supp4_mk44; simpl; [lia|repeat constructor]
                  |first [apply supp4_madj|idtac]; apply supp4_mk44; simpl; [lia|repeat constructor]|];
  unfold meq; intros i j Hi Hj; revert i Hi j Hj;
  refine (lt4_cases _ _ _ _ _); refine (lt4_cases _ _ _ _ _);
  mat_entry; try reflexivity; try (apply C_ext; simpl; try lra).

Lemma madj_invol m : madj (madj m) = m.
Proof.
  apply functional_extensionality; intros i; apply functional_extensionality; intros j.
  unfold madj; apply Cconj_invol.
Qed.
Lemma madj_R p : madj (m_R p) = m_R (- p).
Proof. mat_ext. Qed.
Lemma half_neg p : 0.5 * - p = - (0.5 * p).
Proof. lra. Qed.
Lemma madj_Rx p : madj (m_Rx p) = m_Rx (- p).
Proof. unfold m_Rx. rewrite half_neg, cos_neg, sin_neg. mat_ext. Qed.
Lemma madj_Ry p : madj (m_Ry p) = m_Ry (- p).
Proof. unfold m_Ry. rewrite half_neg, cos_neg, sin_neg. mat_ext. Qed.
Lemma madj_Rz p : madj (m_Rz p) = m_Rz (- p).
Proof. unfold m_Rz. rewrite half_neg, Ropp_involutive. mat_ext. Qed.
Lemma madj_A p : madj (m_A p) = m_A p.
Proof. mat_ext. Qed.
Lemma madj_cR p : madj (m_cR p) = m_cR (- p).
Proof. mat_ext. Qed.
Lemma madj_cRz p : madj (m_cRz p) = m_cRz (- p).
Proof. unfold m_cRz. rewrite half_neg, Ropp_involutive. mat_ext. Qed.
Lemma cos_mPI4 : cos (- PI / 4) = rsqrt2.
Proof. replace (- PI / 4) with (- (PI / 4)) by lra. rewrite cos_neg. apply cos_PI4. Qed.
Lemma sin_mPI4 : sin (- PI / 4) = - rsqrt2.
Proof. replace (- PI / 4) with (- (PI / 4)) by lra. rewrite sin_neg, sin_PI4. reflexivity. Qed.
Lemma madj_T : madj m_T = m_R (- PI / 4).
Proof. unfold m_R, Ccis. rewrite cos_mPI4, sin_mPI4. mat_ext. Qed.
Lemma madj_S : madj m_S = m_R (- PI / 2).
Proof.
  unfold m_R, Ccis. replace (- PI / 2) with (- (PI / 2)) by lra. rewrite cos_neg, sin_neg, cos_PI2, sin_PI2. mat_ext.
Qed.
Lemma madj_ctrl4 m : madj (ctrl4 m) = ctrl4 (madj m).
Proof. unfold ctrl4. mat_ext. Qed.

Lemma self_adjoint_spec m :
  self_adjoint m = true <->
  forall i j, (i < 4)%nat -> (j < 4)%nat -> Cnorm2 (Cconj (m i j) - m j i)%C <= 1e-12.
Proof.
  unfold self_adjoint. rewrite forallb_forall. split.
  - intros H i j Hi Hj. assert (Ii : In i idx4) by (unfold idx4; simpl; lia).
    specialize (H i Ii). rewrite forallb_forall in H.
    assert (Ij : In j idx4) by (unfold idx4; simpl; lia). specialize (H j Ij).
    apply negb_true_iff in H. destruct (Rltb_spec 1e-12 (Cnorm2 (Cconj (m i j) - m j i)%C)); [discriminate|lra].
  - intros H i Hi. apply forallb_forall. intros j Hj. apply negb_true_iff, Rltb_false, H; unfold idx4 in *; simpl in *; lia.
Qed.
Definition hermitian4 (m : mat) : Prop := meq 4 (madj m) m.
Lemma self_adjoint_herm m : hermitian4 m -> self_adjoint m = true.
Proof.
  intros H. apply self_adjoint_spec. intros i j Hi Hj. specialize (H j i Hj Hi). unfold madj in H.
  rewrite H. unfold Cnorm2, Csub; simpl. lra.
Qed.

(** types whose matrix is Hermitian *)
Lemma herm_types ty p : type_param ty = false ->
  match ty with TV | TadjV | TS | TT | TcV | TadjcV => True | _ => hermitian4 (type_mat ty p) end.
Proof.
  intros H. destruct ty; try discriminate H; try exact Logic.I; cbn [type_mat];
  unfold hermitian4, meq; intros i j Hi Hj; revert i Hi j Hj;
  refine (lt4_cases _ _ _ _ _); refine (lt4_cases _ _ _ _ _); mat_entry; try reflexivity;
  apply C_ext; simpl; lra.
Qed.
Definition sa_exact (m : mat) : Prop := self_adjoint m = true -> hermitian4 m.
Lemma sa_exact_wit m i j : (i < 4)%nat -> (j < 4)%nat ->
  1e-12 < Cnorm2 (Cconj (m i j) - m j i)%C -> sa_exact m.
Proof. intros Hi Hj H E. rewrite self_adjoint_spec in E. specialize (E i j Hi Hj). lra. Qed.
Lemma sa_exact_type ty p : type_param ty = false -> sa_exact (type_mat ty p).
Proof.
  intros H. pose proof (herm_types ty p H) as HH.
  destruct ty; try discriminate H; try (intros _; exact HH).
  - apply (sa_exact_wit _ 0 0); try lia. cbn [type_mat]. unfold Cnorm2. mat_entry. lra.
  - apply (sa_exact_wit _ 0 0); try lia. cbn [type_mat]. unfold Cnorm2. mat_entry. lra.
  - apply (sa_exact_wit _ 1 1); try lia. cbn [type_mat]. unfold Cnorm2. mat_entry. lra.
  - apply (sa_exact_wit _ 1 1); try lia. cbn [type_mat]. unfold Cnorm2. mat_entry.
    pose proof rsqrt2_sq. lra.
  - apply (sa_exact_wit _ 2 2); try lia. cbn [type_mat]. unfold Cnorm2. mat_entry. lra.
  - apply (sa_exact_wit _ 2 2); try lia. cbn [type_mat]. unfold Cnorm2. mat_entry. lra.
Qed.

(** labels of the types that Gate::adjoint renames *)
Ltac label_cases g :=
  unfold gate_type, mapLabelToType; 
  repeat match goal with |- context [?a =? ?b] => destruct (String.eqb_spec a b) as [?|?]; try discriminate end;
  try (intros; assumption).
Lemma label_V g : gate_type g = TV -> glabel g = "V".
Proof. label_cases g. Qed.
Lemma label_adjV g : gate_type g = TadjV -> glabel g = "adj(V)".
Proof. label_cases g. Qed.
Lemma label_cV g : gate_type g = TcV -> glabel g = "cV".
Proof. label_cases g. Qed.
Lemma label_adjcV g : gate_type g = TadjcV -> glabel g = "adj(cV)".
Proof. label_cases g. Qed.

(** every gate make_gate returns has the matrix of its label *)
Lemma make_gate_std type t c x g : make_gate type t c x = Ok g ->
  exists p, std_gate (mapLabelToType type) p g /\ glabel g = type /\ gtarget g = t /\ gcontrol g = c.
Proof.
  unfold make_gate. destruct (Nat.eqb t c) eqn:Etc;
  repeat (match goal with |- context [if ?b then _ else _] => 
    match b with
    | (?a =? ?l) => destruct (String.eqb_spec a l) as [->|?]
    | ((?a =? ?l) || (?a =? ?l'))%bool =>
        destruct (String.eqb_spec a l) as [->|?]; [|destruct (String.eqb_spec a l') as [->|?]]; cbn [orb]
    end end); intros E; try discriminate E; injection E as <-.
  all: match goal with |- context [normalize_angle ?y ?q] => exists (normalize_angle y q) | |- _ => exists 0 end.
  all: split; [|repeat split]; constructor; try reflexivity; try discriminate; simpl; exact Etc.
Qed.

Definition cU_gate (m : mat) (g : gate) : Prop :=
  (glabel g = "cU" \/ glabel g = "adj(cU)") /\ gtarget g <> gcontrol g /\ gmat g = ctrl4 m.

Lemma unitary_madj d m : unitary d m -> unitary d (madj m).
Proof. intros [H1 H2]. split; rewrite madj_invol; assumption. Qed.
Lemma unitary_type1 ty p : type_1q ty = true -> unitary 2 (type_mat ty p).
Proof.
  destruct ty; intros H; try discriminate H; cbn [type_mat];
    auto using unit_X, unit_Y, unit_Z, unit_H, unit_R, unit_Rx, unit_Ry, unit_Rz, unit_V, unit_S, unit_T, unit_I, unitary_madj.
Qed.
Lemma unitary_type2 ty p : type_1q ty = false -> ty <> TUndefined -> unitary 4 (type_mat ty p).
Proof.
  destruct ty; intros H HU; try discriminate H; cbn [type_mat];
    auto using unit_A, unit_cX, unit_acX, unit_cY, unit_cZ, unit_cR, unit_cV, unit_cRz, unit_SWAP, unitary_madj.
  congruence.
Qed.
Lemma unitary_ctrl4 m : unitary 2 m -> unitary 4 (ctrl4 m).
Proof.
  intros [H1 H2].
  assert (E : forall i j, (i < 2)%nat -> (j < 2)%nat ->
    (Cconj (m 0%nat i) * m 0%nat j + Cconj (m 1%nat i) * m 1%nat j = mid i j)%C).
  { intros i j Hi Hj. rewrite <- (H1 i j Hi Hj). unfold mmul, madj. cbn [seq]. rewrite !Csum_cons, Csum_nil. ring. }
  assert (F : forall i j, (i < 2)%nat -> (j < 2)%nat ->
    (m i 0%nat * Cconj (m j 0%nat) + m i 1%nat * Cconj (m j 1%nat) = mid i j)%C).
  { intros i j Hi Hj. rewrite <- (H2 i j Hi Hj). unfold mmul, madj. cbn [seq]. rewrite !Csum_cons, Csum_nil. ring. }
  split; unfold meq; intros i j Hi Hj; revert i Hi j Hj; refine (lt4_cases _ _ _ _ _); refine (lt4_cases _ _ _ _ _);
    unfold mmul, madj; cbn [seq]; rewrite ?Csum_cons, ?Csum_nil; unfold ctrl4, mk44; cbn [nth];
    rewrite ?Cconj_C0, ?Cconj_C1; unfold mid; cbn [Nat.eqb]; try ring.
  - transitivity (mid 0%nat 0%nat); [rewrite <- (E 0%nat 0%nat) by lia; ring|reflexivity].
  - transitivity (mid 0%nat 1%nat); [rewrite <- (E 0%nat 1%nat) by lia; ring|reflexivity].
  - transitivity (mid 1%nat 0%nat); [rewrite <- (E 1%nat 0%nat) by lia; ring|reflexivity].
  - transitivity (mid 1%nat 1%nat); [rewrite <- (E 1%nat 1%nat) by lia; ring|reflexivity].
  - transitivity (mid 0%nat 0%nat); [rewrite <- (F 0%nat 0%nat) by lia; ring|reflexivity].
  - transitivity (mid 0%nat 1%nat); [rewrite <- (F 0%nat 1%nat) by lia; ring|reflexivity].
  - transitivity (mid 1%nat 0%nat); [rewrite <- (F 1%nat 0%nat) by lia; ring|reflexivity].
  - transitivity (mid 1%nat 1%nat); [rewrite <- (F 1%nat 1%nat) by lia; ring|reflexivity].
Qed.

(** what a library gate looks like *)
Definition lib_shape (g : gate) : Prop :=
  (exists ty p, std_gate ty p g) \/ (exists m, cU_gate m g /\ unitary 2 m).

Lemma std_adjoint ty p g : std_gate ty p g -> exists ty' p', std_gate ty' p' (gate_adjoint g).
Proof.
  intros [Ht Hd Hm Hp Hq]. unfold gate_adjoint. rewrite Hp. unfold std_param. destruct (type_param ty) eqn:EP.
  - destruct ty; try discriminate EP; cbn [gtype_eqb negb].
    1-4: exists (gate_type g), (- p).
    5: exists (gate_type g), p.
    6-7: exists (gate_type g), (- p).
    all: constructor; unfold gate_type in *; simpl; rewrite ?Ht, ?Hm; auto; cbn [type_mat];
      auto using madj_R, madj_Rx, madj_Ry, madj_Rz, madj_A, madj_cR, madj_cRz;
      unfold std_param; cbn [type_param gtype_eqb negb]; repeat f_equal; lra.
  - destruct (self_adjoint (gmat g)) eqn:ES; [exists ty, p; constructor; auto; rewrite Hp; unfold std_param; rewrite EP; reflexivity|].
    pose proof (herm_types ty p EP) as HH. rewrite Hm in ES.
    destruct ty; try discriminate EP; try (rewrite (self_adjoint_herm _ HH) in ES; discriminate ES); rewrite Ht.
    + exists TadjV, p. pose proof (label_V g Ht) as HL. constructor; simpl; auto; try discriminate;
        [unfold gate_type; simpl; rewrite HL; reflexivity | rewrite Hm; reflexivity].
    + exists TV, p. pose proof (label_adjV g Ht) as HL. constructor; simpl; auto; try discriminate;
        [unfold gate_type; simpl; rewrite HL; reflexivity | rewrite Hm; apply madj_invol].
    + exists TR, (- PI / 2). constructor; simpl; auto; try discriminate. rewrite Hm. apply madj_S.
    + exists TR, (- PI / 4). constructor; simpl; auto; try discriminate. rewrite Hm. apply madj_T.
    + exists TadjcV, p. pose proof (label_cV g Ht) as HL. constructor; simpl; auto; try discriminate;
        [unfold gate_type; simpl; rewrite HL; reflexivity | rewrite Hm; reflexivity].
    + exists TcV, p. pose proof (label_adjcV g Ht) as HL. constructor; simpl; auto; try discriminate;
        [unfold gate_type; simpl; rewrite HL; reflexivity | rewrite Hm; apply madj_invol].
Qed.

Lemma cU_adjoint m g : cU_gate m g -> cU_gate m (gate_adjoint g) \/ cU_gate (madj m) (gate_adjoint g).
Proof.
  intros (HL & Hq & Hm). unfold gate_adjoint. destruct (gparam g) as [[x b]|] eqn:EP.
  - right. repeat split; simpl; auto. rewrite Hm; apply madj_ctrl4.
  - destruct (self_adjoint (gmat g)); [left; repeat split; auto|].
    assert (HT : gate_type g = TUndefined) by (unfold gate_type; destruct HL as [-> | ->]; reflexivity).
    rewrite HT. right. repeat split; simpl; auto.
    + destruct HL as [-> | ->]; [right|left]; reflexivity.
    + rewrite Hm; apply madj_ctrl4.
Qed.

Lemma library_shape g : library_gate g -> lib_shape g.
Proof.
  induction 1 as [type t c x g H|c U g HU IH HN HC|g H IH].
  - destruct (make_gate_std _ _ _ _ _ H) as (p & HS & _). left; eauto.
  - right. unfold make_control_gate in HC.
    destruct (Nat.eqb_spec (gtarget U) c) as [E|E]; [discriminate|]. injection HC as <-.
    exists (gmat U). split.
    + repeat split; simpl; auto.
    + assert (H1 : Nat.eqb (gtarget U) (gcontrol U) = true).
      { rewrite <- gnqubits_1, HN. reflexivity. }
      destruct IH as [(ty & p & HS)|(m & (_ & Hq & _) & _)].
      * rewrite (sg_mat _ _ _ HS). apply unitary_type1. rewrite <- (sg_q _ _ _ HS). exact H1.
      * apply Nat.eqb_eq in H1. contradiction.
  - destruct IH as [(ty & p & HS)|(m & HC & HU)].
    + left. destruct (std_adjoint _ _ _ HS) as (ty' & p' & HS'). eauto.
    + right. destruct (cU_adjoint _ _ HC) as [HC'|HC']; eauto using unitary_madj.
Qed.

Definition gdim (g : gate) : nat := if Nat.eqb (gtarget g) (gcontrol g) then 2 else 4.

Lemma library_unitary g : library_gate g -> unitary (gdim g) (gmat g).
Proof.
  intros H. unfold gdim. destruct (library_shape g H) as [(ty & p & HS)|(m & (HL & Hq & Hm) & HU)].
  - rewrite (sg_q _ _ _ HS), (sg_mat _ _ _ HS). destruct (type_1q ty) eqn:E.
    + apply unitary_type1; exact E.
    + apply unitary_type2; [exact E|apply (sg_def _ _ _ HS)].
  - apply Nat.eqb_neq in Hq. rewrite Hq, Hm. apply unitary_ctrl4; exact HU.
Qed.

(** adjoint is the conjugate transpose *)
Lemma sa_exact_madj m : sa_exact m -> sa_exact (madj m).
Proof.
  intros H E i j Hi Hj. rewrite madj_invol.
  assert (ES : self_adjoint m = true).
  { rewrite self_adjoint_spec in *. intros a b Ha Hb. specialize (E b a Hb Ha).
    unfold madj in E. rewrite Cconj_invol in E. unfold Cnorm2, Csub, Cconj in *; simpl in *. lra. }
  symmetry. apply (H ES i j Hi Hj).
Qed.
Lemma supp2_type ty p i j : type_1q ty = true -> (2 <= i \/ 2 <= j)%nat -> type_mat ty p i j = C0.
Proof.
  intros H Hij. 
  destruct (Nat.lt_ge_cases i 4); [destruct (Nat.lt_ge_cases j 4)|]; try (apply supp4_type; auto; fail).
  destruct ty; try discriminate H; cbn [type_mat];
  (destruct i as [|[|[|[|i]]]]; [..|lia]); (destruct j as [|[|[|[|j]]]]; [..|lia]); try lia;
  unfold madj; try (symmetry; apply Cconj_C0); try reflexivity; apply Cconj_C0.
Qed.
Lemma sa_exact_ctrl4 m : (forall i j, (2 <= i \/ 2 <= j)%nat -> m i j = C0) -> sa_exact m -> sa_exact (ctrl4 m).
Proof.
  intros HS H E.
  assert (ES : self_adjoint m = true).
  { rewrite self_adjoint_spec in *. intros i j Hi Hj.
    destruct (Nat.lt_ge_cases i 2) as [Li|Li]; [destruct (Nat.lt_ge_cases j 2) as [Lj|Lj]|].
    - specialize (E (2 + i) (2 + j))%nat. destruct i as [|[|i]]; [..|lia]; (destruct j as [|[|j]]; [..|lia]);
        apply E; lia.
    - rewrite !HS by auto. unfold Cnorm2, Csub, Cconj; simpl; lra.
    - rewrite !HS by auto. unfold Cnorm2, Csub, Cconj; simpl; lra. }
  specialize (H ES). unfold hermitian4. rewrite madj_ctrl4.
  intros i j Hi Hj; revert i Hi j Hj; refine (lt4_cases _ _ _ _ _); refine (lt4_cases _ _ _ _ _);
    unfold ctrl4, mk44; cbn [nth]; try reflexivity; apply H; lia.
Qed.

Lemma sa_exact_library g : library_gate g -> gparam g = None -> sa_exact (gmat g).
Proof.
  induction 1 as [type t c x g H|c U g HU IH HN HC|g H IH]; intros HP.
  - destruct (make_gate_std _ _ _ _ _ H) as (p & HS & _). rewrite (sg_mat _ _ _ HS). apply sa_exact_type.
    rewrite (sg_param _ _ _ HS) in HP. unfold std_param in HP. destruct (type_param _); [discriminate|reflexivity].
  - unfold make_control_gate in HC.
    destruct (Nat.eqb_spec (gtarget U) c) as [E|E]; [discriminate|]. injection HC as <-. simpl in *.
    apply sa_exact_ctrl4.
    + assert (H1 : Nat.eqb (gtarget U) (gcontrol U) = true) by (rewrite <- gnqubits_1, HN; reflexivity).
      intros i j Hij. destruct (library_shape U HU) as [(ty & p & HS)|(m & (_ & Hq & _) & _)].
      * rewrite (sg_mat _ _ _ HS). apply supp2_type; [|exact Hij]. rewrite <- (sg_q _ _ _ HS). exact H1.
      * apply Nat.eqb_eq in H1. contradiction.
    + apply IH. destruct (gparam U) as [[? ?]|]; [discriminate|reflexivity].
  - unfold gate_adjoint in *. destruct (gparam g) as [[x b]|] eqn:EP; [discriminate|].
    specialize (IH eq_refl). destruct (self_adjoint (gmat g)); [exact IH|].
    destruct (gate_type g); try discriminate HP; simpl; apply sa_exact_madj; exact IH.
Qed.

Lemma adjoint_qubits g : gtarget (gate_adjoint g) = gtarget g /\ gcontrol (gate_adjoint g) = gcontrol g.
Proof.
  unfold gate_adjoint. destruct (gparam g) as [[x b]|]; [split; reflexivity|].
  destruct (self_adjoint (gmat g)); [split; reflexivity|]. destruct (gate_type g); split; reflexivity.
Qed.
Lemma adjoint_matrix g : library_gate g -> meq 4 (gmat (gate_adjoint g)) (madj (gmat g)).
Proof.
  intros H. unfold gate_adjoint. destruct (gparam g) as [[x b]|] eqn:EP; [intros i j _ _; reflexivity|].
  destruct (self_adjoint (gmat g)) eqn:ES.
  - intros i j Hi Hj. symmetry. apply (sa_exact_library g H EP ES); assumption.
  - destruct (gate_type g); intros i j _ _; reflexivity.
Qed.

(** *** algebra of actions *)
Lemma act1_meq m m' t psi : meq 2 m m' -> act1 m t psi == act1 m' t psi.
Proof.
  intros H I. unfold act1. destruct (bit I t); cbn [b2n]; rewrite !H by lia; reflexivity.
Qed.
Lemma act2_meq m m' t c psi : meq 4 m m' -> act2 m t c psi == act2 m' t c psi.
Proof.
  intros H I. unfold act2. destruct (bit I t), (bit I c); cbn [b2n Nat.mul Nat.add]; rewrite !H by lia; reflexivity.
Qed.
Lemma act1_mid t psi : act1 mid t psi == psi.
Proof.
  intros I. unfold act1, mid. destruct (bit I t) eqn:E; cbn [b2n Nat.eqb]; rewrite (upd_id' I t _ E); ring.
Qed.
Lemma act2_mid t c psi : t <> c -> act2 mid t c psi == psi.
Proof.
  intros N I. unfold act2, mid. destruct (bit I t) eqn:E, (bit I c) eqn:F; cbn [b2n Nat.eqb Nat.mul Nat.add];
    rewrite ?(upd_id' I c _ F), ?(upd_id' I t _ E); ring.
Qed.
Lemma act1_mmul m m' t psi : act1 m t (act1 m' t psi) == act1 (mmul 2 m m') t psi.
Proof.
  intros I. unfold act1, mmul. cbn [seq]. rewrite !Csum_cons, !Csum_nil, !bit_upd_same, !upd_upd.
  destruct (bit I t); cbn [b2n]; ring.
Qed.
Lemma upd2_bits I t c a b : t <> c -> bit (upd (upd I c a) t b) c = a /\ bit (upd (upd I c a) t b) t = b.
Proof.
  intros N. rewrite !bit_upd, !Nat.eqb_refl. destruct (Nat.eqb_spec c t); [congruence|auto].
Qed.
Lemma upd2_upd2 I t c a b a' b' : t <> c ->
  upd (upd (upd (upd I c a) t b) c a') t b' = upd (upd I c a') t b'.
Proof. intros N. bitsolve. Qed.
Lemma act2_mmul m m' t c psi : t <> c -> act2 m t c (act2 m' t c psi) == act2 (mmul 4 m m') t c psi.
Proof.
  intros N I. unfold act2, mmul. cbn [seq]. rewrite !Csum_cons, !Csum_nil.
  rewrite !(fun a b => proj1 (upd2_bits I t c a b N)), !(fun a b => proj2 (upd2_bits I t c a b N)).
  rewrite !(upd2_upd2 I t c _ _ _ _ N).
  destruct (bit I t), (bit I c); cbn [b2n Nat.mul Nat.add]; ring.
Qed.

Lemma gate_act_meq g g' psi : gtarget g' = gtarget g -> gcontrol g' = gcontrol g ->
  meq (gdim g) (gmat g') (gmat g) -> gate_act g' psi == gate_act g psi.
Proof.
  intros Ht Hc H. unfold gate_act. rewrite Ht, Hc. unfold gdim in H.
  destruct (Nat.eqb _ _); [apply act1_meq|apply act2_meq]; exact H.
Qed.

Lemma gate_inverse g g' psi : gtarget g' = gtarget g -> gcontrol g' = gcontrol g ->
  meq (gdim g) (mmul (gdim g) (gmat g') (gmat g)) mid -> gate_act g' (gate_act g psi) == psi.
Proof.
  intros Ht Hc H. unfold gate_act. rewrite Ht, Hc. unfold gdim in H.
  destruct (Nat.eqb_spec (gtarget g) (gcontrol g)) as [E|E].
  - eapply seq_trans; [apply act1_mmul|]. eapply seq_trans; [apply act1_meq; exact H|]. apply act1_mid.
  - eapply seq_trans; [apply act2_mmul; exact E|]. eapply seq_trans; [apply act2_meq; exact H|]. apply act2_mid; exact E.
Qed.

Lemma meq_le d d' a b : (d <= d')%nat -> meq d' a b -> meq d a b.
Proof. intros L H i j Hi Hj. apply H; lia. Qed.
Lemma mmul_meq d a a' b b' : meq d a a' -> meq d b b' -> meq d (mmul d a b) (mmul d a' b').
Proof.
  intros Ha Hb i j Hi Hj. unfold mmul. apply Csum_ext. intros k Hk. apply in_seq in Hk.
  rewrite Ha, Hb by lia. reflexivity.
Qed.
Lemma meq_trans d a b c : meq d a b -> meq d b c -> meq d a c.
Proof. intros H1 H2 i j Hi Hj. rewrite H1 by assumption. apply H2; assumption. Qed.
Lemma meq_refl d a : meq d a a.
Proof. intros i j _ _; reflexivity. Qed.
Lemma gdim_le4 g : (gdim g <= 4)%nat.
Proof. unfold gdim; destruct (Nat.eqb _ _); lia. Qed.

Lemma adjoint_undoes g psi : library_gate g ->
  gate_act (gate_adjoint g) (gate_act g psi) == psi /\ gate_act g (gate_act (gate_adjoint g) psi) == psi.
Proof.
  intros H. destruct (adjoint_qubits g) as [Ht Hc]. destruct (library_unitary g H) as [U1 U2].
  pose proof (meq_le _ _ _ _ (gdim_le4 g) (adjoint_matrix g H)) as HM.
  split.
  - apply gate_inverse; auto. eapply meq_trans; [|exact U1]. apply mmul_meq; [exact HM|apply meq_refl].
  - assert (ED : gdim (gate_adjoint g) = gdim g) by (unfold gdim; rewrite Ht, Hc; reflexivity).
    apply gate_inverse; auto. rewrite ED. eapply meq_trans; [|exact U2]. apply mmul_meq; [apply meq_refl|exact HM].
Qed.

(** Circuit::adjoint (circuit.cc:98-105) *)
Definition circuit_adjoint (gs : list gate) : list gate := rev (map gate_adjoint gs).
Lemma circuit_adjoint_undoes gs psi : Forall library_gate gs ->
  circ_act (circuit_adjoint gs) (circ_act gs psi) == psi /\ circ_act gs (circ_act (circuit_adjoint gs) psi) == psi.
Proof.
  unfold circuit_adjoint. revert psi. induction gs as [|g gs IH]; intros psi H.
  - split; apply seq_refl.
  - inversion H as [|? ? Hg Hgs]; subst. cbn [map rev]. rewrite !circ_act_app, !circ_act_cons.
    change (circ_act [] ?x) with x. split.
    + eapply seq_trans; [apply gate_act_ext; apply (proj1 (IH _ Hgs))|]. apply adjoint_undoes; exact Hg.
    + cbn [circ_act fold_left]. eapply seq_trans; [|apply (proj2 (IH psi Hgs))].
      apply circ_act_ext. apply adjoint_undoes; exact Hg.
Qed.

(** *** inner products *)
Lemma flip_perm n t : (t < n)%nat -> Permutation (map (fun I => flip I t) (seq 0 (2 ^ n))) (seq 0 (2 ^ n)).
Proof.
  intros Ht. apply NoDup_Permutation_bis.
  - apply FinFun.Injective_map_NoDup; [|apply seq_NoDup].
    intros a b E. rewrite <- (flip_flip a t), <- (flip_flip b t). rewrite E; reflexivity.
  - rewrite map_length; lia.
  - intros x Hx. apply in_map_iff in Hx. destruct Hx as (y & <- & Hy). apply in_seq_pow in Hy.
    apply in_seq_pow, flip_lt; assumption.
Qed.
Lemma Csum_flip n t F : (t < n)%nat ->
  Csum F (seq 0 (2 ^ n)) = Csum (fun I => F (flip I t)) (seq 0 (2 ^ n)).
Proof. intros Ht. rewrite <- (Csum_map (fun I => flip I t) F). apply Csum_perm, Permutation_sym, flip_perm; exact Ht. Qed.

Definition bi (I t : nat) := b2n (bit I t).
Definition nbi (I t : nat) := b2n (negb (bit I t)).
Lemma act1_flip m t psi I :
  act1 m t psi I = (m (bi I t) (bi I t) * psi I + m (bi I t) (nbi I t) * psi (flip I t))%C.
Proof.
  unfold act1, bi, nbi. rewrite flip_upd. destruct (bit I t) eqn:E; cbn [b2n negb];
    rewrite (upd_id' I t _ E); ring.
Qed.
Definition i2 (I c t : nat) := (2 * bi I c + bi I t)%nat.
Lemma act2_flip m t c psi I : t <> c ->
  act2 m t c psi I = (m (i2 I c t) (i2 I c t) * psi I
    + m (i2 I c t) (i2 (flip I t) c t) * psi (flip I t)
    + m (i2 I c t) (i2 (flip I c) c t) * psi (flip I c)
    + m (i2 I c t) (i2 (flip (flip I c) t) c t) * psi (flip (flip I c) t))%C.
Proof.
  intros N. unfold act2, i2, bi. rewrite !bit_flip, !Nat.eqb_refl.
  destruct (Nat.eqb_spec c t); [congruence|]. destruct (Nat.eqb_spec t c); [congruence|].
  rewrite !flip_upd, !bit_upd, ?Nat.eqb_refl. destruct (Nat.eqb_spec t c); [congruence|].
  assert (U : forall a, upd (upd I c a) t (bit I t) = upd I c a).
  { intros a. apply upd_id'. rewrite bit_upd_other by assumption. reflexivity. }
  pose proof (U true) as U1. pose proof (U false) as U0.
  destruct (bit I t) eqn:E, (bit I c) eqn:F; cbn [b2n negb Nat.mul Nat.add];
    rewrite ?U1, ?U0; rewrite ?(upd_id' I c _ F), ?(upd_id' I t _ E); ring.
Qed.

Lemma inner_act1 n m t a b : (t < n)%nat -> inner n a (act1 m t b) = inner n (act1 (madj m) t a) b.
Proof.
  intros Ht. unfold inner.
  transitivity (Csum (fun I => (Cconj (a I) * (m (bi I t) (bi I t) * b I))%C) (seq 0 (2 ^ n))
    + Csum (fun I => (Cconj (a I) * (m (bi I t) (nbi I t) * b (flip I t)))%C) (seq 0 (2 ^ n)))%C.
  { rewrite <- Csum_add. apply Csum_ext. intros I _. rewrite act1_flip. ring. }
  rewrite (Csum_flip n t (fun I => (Cconj (a I) * (m (bi I t) (nbi I t) * b (flip I t)))%C) Ht).
  rewrite <- Csum_add. apply Csum_ext. intros I _. rewrite act1_flip. unfold madj.
  rewrite Cconj_add, !Cconj_mul, !Cconj_invol, flip_flip. unfold bi, nbi. rewrite bit_flip, Nat.eqb_refl, negb_involutive. ring.
Qed.
Lemma inner_act2 n m t c a b : (t < n)%nat -> (c < n)%nat -> t <> c ->
  inner n a (act2 m t c b) = inner n (act2 (madj m) t c a) b.
Proof.
  intros Ht Hc N. unfold inner.
  transitivity (Csum (fun I => (Cconj (a I) * (m (i2 I c t) (i2 I c t) * b I))%C) (seq 0 (2 ^ n))
    + Csum (fun I => (Cconj (a I) * (m (i2 I c t) (i2 (flip I t) c t) * b (flip I t)))%C) (seq 0 (2 ^ n))
    + Csum (fun I => (Cconj (a I) * (m (i2 I c t) (i2 (flip I c) c t) * b (flip I c)))%C) (seq 0 (2 ^ n))
    + Csum (fun I => (Cconj (a I) * (m (i2 I c t) (i2 (flip (flip I c) t) c t) * b (flip (flip I c) t)))%C) (seq 0 (2 ^ n)))%C.
  { rewrite <- !Csum_add. apply Csum_ext. intros I _. rewrite act2_flip by exact N. ring. }
  rewrite (Csum_flip n t (fun I => (Cconj (a I) * (m (i2 I c t) (i2 (flip I t) c t) * b (flip I t)))%C) Ht).
  rewrite (Csum_flip n c (fun I => (Cconj (a I) * (m (i2 I c t) (i2 (flip I c) c t) * b (flip I c)))%C) Hc).
  rewrite (Csum_flip n c (fun I => (Cconj (a I) * (m (i2 I c t) (i2 (flip (flip I c) t) c t) * b (flip (flip I c) t)))%C) Hc).
  rewrite (Csum_flip n t (fun I => (Cconj (a (flip I c)) * (m (i2 (flip I c) c t) (i2 (flip (flip (flip I c) c) t) c t) * b (flip (flip (flip I c) c) t)))%C) Ht).
  rewrite <- !Csum_add. apply Csum_ext. intros I _. rewrite act2_flip by exact N. unfold madj.
  rewrite !Cconj_add, !Cconj_mul, !Cconj_invol, !flip_flip. rewrite (flip_comm I t c). ring.
Qed.

Lemma inner_ext n a a' b b' : a == a' -> b == b' -> inner n a b = inner n a' b'.
Proof. intros H1 H2. unfold inner. apply Csum_ext. intros I _. rewrite H1, H2; reflexivity. Qed.

Lemma inner_gate n g a b : library_gate g -> in_range n g ->
  inner n a (gate_act g b) = inner n (gate_act (gate_adjoint g) a) b.
Proof.
  intros H [Ht Hc]. destruct (adjoint_qubits g) as [Et Ec].
  assert (E : gate_act (gate_adjoint g) a ==
    (if Nat.eqb (gtarget g) (gcontrol g) then act1 (madj (gmat g)) (gtarget g) a
     else act2 (madj (gmat g)) (gtarget g) (gcontrol g) a)).
  { unfold gate_act. rewrite Et, Ec. destruct (Nat.eqb _ _).
    - apply act1_meq. apply (meq_le 2 4); [lia|apply adjoint_matrix; exact H].
    - apply act2_meq. apply adjoint_matrix; exact H. }
  rewrite (inner_ext n _ _ b b E (seq_refl b)). unfold gate_act.
  destruct (Nat.eqb_spec (gtarget g) (gcontrol g)) as [EQ|EQ]; [apply inner_act1|apply inner_act2]; assumption.
Qed.
Lemma in_range_adjoint n g : in_range n g -> in_range n (gate_adjoint g).
Proof. unfold in_range. destruct (adjoint_qubits g) as [-> ->]. auto. Qed.

Lemma gate_preserves_inner n g a b : library_gate g -> in_range n g ->
  inner n (gate_act g a) (gate_act g b) = inner n a b.
Proof.
  intros H HR. rewrite inner_gate by assumption. apply inner_ext; [|apply seq_refl]. apply adjoint_undoes; exact H.
Qed.
Lemma circ_preserves_inner n gs : forall a b, Forall library_gate gs -> Forall (in_range n) gs ->
  inner n (circ_act gs a) (circ_act gs b) = inner n a b.
Proof.
  induction gs as [|g gs IH]; intros a b H HR; [reflexivity|]. inversion H; inversion HR; subst.
  rewrite !circ_act_cons, IH by assumption. apply gate_preserves_inner; assumption.
Qed.
Lemma circ_inner_adjoint n gs : forall a b, Forall library_gate gs -> Forall (in_range n) gs ->
  inner n a (circ_act gs b) = inner n (circ_act (circuit_adjoint gs) a) b.
Proof.
  induction gs as [|g gs IH]; intros a b H HR; [reflexivity|]. inversion H; inversion HR; subst.
  unfold circuit_adjoint. cbn [map rev]. rewrite circ_act_app, circ_act_cons, IH by assumption.
  rewrite inner_gate by assumption. reflexivity.
Qed.
