(** Soundness of evaluate_gate_interaction (C10). *)
From Coq Require Import Reals String List Arith Lia Bool Lra.
From Verif Require Import CBase Result Bits Spec GateModel ComputerModel ApplyProofs SafeProofs GateProofs LibProofs.
Import ListNotations.
Local Open Scope C_scope.

Definition commute2 (A B : mat) : Prop := meq 2 (mmul 2 A B) (mmul 2 B A).
Lemma commute2_sym A B : commute2 A B -> commute2 B A.
Proof. intros H i j Hi Hj. symmetry; apply H; assumption. Qed.

(** families of mutually commuting 2x2 matrices *)
Definition famX (m : mat) := m 0%nat 0%nat = m 1%nat 1%nat /\ m 0%nat 1%nat = m 1%nat 0%nat.
Definition famY (m : mat) := m 0%nat 0%nat = m 1%nat 1%nat /\ m 0%nat 1%nat = - m 1%nat 0%nat.
Definition famZ (m : mat) := m 0%nat 1%nat = C0 /\ m 1%nat 0%nat = C0.

Ltac mm2 := unfold commute2, meq; intros i j Hi Hj; revert i Hi j Hj; refine (lt2_cases _ _ _); refine (lt2_cases _ _ _);
  unfold mmul; cbn [seq]; rewrite !Csum_cons, !Csum_nil.
Lemma famX_comm a b : famX a -> famX b -> commute2 a b.
Proof. intros [H1 H2] [H3 H4]. mm2; rewrite ?H1, ?H2, ?H3, ?H4; ring. Qed.
Lemma famY_comm a b : famY a -> famY b -> commute2 a b.
Proof. intros [H1 H2] [H3 H4]. mm2; rewrite ?H1, ?H2, ?H3, ?H4; ring. Qed.
Lemma famZ_comm a b : famZ a -> famZ b -> commute2 a b.
Proof. intros [H1 H2] [H3 H4]. mm2; rewrite ?H1, ?H2, ?H3, ?H4; ring. Qed.
Lemma commute2_refl a : commute2 a a.
Proof. intros i j _ _; reflexivity. Qed.
Lemma commute2_meq a a' b b' : meq 2 a a' -> meq 2 b b' -> commute2 a b -> commute2 a' b'.
Proof.
  intros Ha Hb H. intros i j Hi Hj.
  transitivity (mmul 2 a b i j).
  { symmetry. apply mmul_meq; assumption. }
  rewrite (H i j Hi Hj). apply mmul_meq; assumption.
Qed.
Lemma commute2_mid a : commute2 mid a.
Proof. mm2; unfold mid; cbn [Nat.eqb]; ring. Qed.

Ltac fam_entry := repeat split; mat_entry; try reflexivity; apply C_ext; simpl; try lra.
Lemma famX_type ty p : tmem ty [TX; TRx; TV; TadjV] = true -> famX (type_mat ty p).
Proof. destruct ty; intros H; try discriminate H; cbn [type_mat]; unfold famX; fam_entry. Qed.
Lemma famY_type ty p : tmem ty [TY; TRy] = true -> famY (type_mat ty p).
Proof. destruct ty; intros H; try discriminate H; cbn [type_mat]; unfold famY; fam_entry. Qed.
Lemma famZ_type ty p : diagonal_1q ty = true -> famZ (type_mat ty p).
Proof. destruct ty; intros H; try discriminate H; cbn [type_mat]; unfold famZ; fam_entry. Qed.

(** the table of commuting pairs is right *)
Lemma pairs_commute_sound a b p q : pairs_commute a b = true -> commute2 (type_mat a p) (type_mat b q).
Proof.
  intros H. destruct a, b; try discriminate H;
  first [ apply famX_comm; apply famX_type; reflexivity
        | apply famY_comm; apply famY_type; reflexivity
        | apply famZ_comm; apply famZ_type; reflexivity
        | apply commute2_refl ].
Qed.

(** *** block-diagonal two-qubit matrices *)
Definition bdiag (m : mat) : Prop :=
  m 0%nat 2%nat = C0 /\ m 0%nat 3%nat = C0 /\ m 1%nat 2%nat = C0 /\ m 1%nat 3%nat = C0 /\
  m 2%nat 0%nat = C0 /\ m 2%nat 1%nat = C0 /\ m 3%nat 0%nat = C0 /\ m 3%nat 1%nat = C0.
Definition sub (m : mat) (b : bool) : mat := fun i j => m (2 * b2n b + i)%nat (2 * b2n b + j)%nat.

Lemma act2_bdiag m t c psi I : t <> c -> bdiag m -> act2 m t c psi I = act1 (sub m (bit I c)) t psi I.
Proof.
  intros N (H1 & H2 & H3 & H4 & H5 & H6 & H7 & H8). unfold act2, act1, sub.
  destruct (bit I c) eqn:E, (bit I t) eqn:F; cbn [b2n Nat.mul Nat.add];
  rewrite ?H1, ?H2, ?H3, ?H4, ?H5, ?H6, ?H7, ?H8, ?(upd_id' I c _ E); ring.
Qed.

Lemma act1_comm_diff A B t u psi : t <> u -> act1 A t (act1 B u psi) == act1 B u (act1 A t psi).
Proof.
  intros N I. unfold act1. rewrite !(bit_upd_other I t) by congruence. rewrite !(bit_upd_other I u) by congruence.
  rewrite !(upd_comm I t _ u) by exact N. ring.
Qed.
Lemma act1_comm_same A B t psi : commute2 A B -> act1 A t (act1 B t psi) == act1 B t (act1 A t psi).
Proof.
  intros H. eapply seq_trans; [apply act1_mmul|]. eapply seq_trans; [apply act1_meq; exact H|].
  apply seq_sym, act1_mmul.
Qed.
Lemma act1_famZ A t psi I : famZ A -> act1 A t psi I = A (b2n (bit I t)) (b2n (bit I t)) * psi I.
Proof.
  intros [H1 H2]. unfold act1. destruct (bit I t) eqn:E; cbn [b2n]; rewrite ?H1, ?H2, (upd_id' I t _ E); ring.
Qed.

(** composition of two block-diagonal gates when the inner control is not the outer target *)
Lemma act2_act2_bd m1 t1 c1 m2 t2 c2 psi I : t1 <> c1 -> t2 <> c2 -> c2 <> t1 -> bdiag m1 -> bdiag m2 ->
  act2 m1 t1 c1 (act2 m2 t2 c2 psi) I = act1 (sub m1 (bit I c1)) t1 (act1 (sub m2 (bit I c2)) t2 psi) I.
Proof.
  intros N1 N2 N3 B1 B2. rewrite act2_bdiag by assumption. unfold act1 at 1.
  rewrite !(act2_bdiag m2) by assumption. rewrite !(bit_upd_other I t1) by exact N3. reflexivity.
Qed.

Lemma bd_same_control m1 m2 t1 t2 c psi : t1 <> c -> t2 <> c -> t1 <> t2 -> bdiag m1 -> bdiag m2 ->
  act2 m1 t1 c (act2 m2 t2 c psi) == act2 m2 t2 c (act2 m1 t1 c psi).
Proof.
  intros. intros I. rewrite !act2_act2_bd by auto. apply act1_comm_diff; assumption.
Qed.
Lemma bd_same_target m1 m2 t c1 c2 psi : t <> c1 -> t <> c2 -> bdiag m1 -> bdiag m2 ->
  (forall a b, commute2 (sub m1 a) (sub m2 b)) ->
  act2 m1 t c1 (act2 m2 t c2 psi) == act2 m2 t c2 (act2 m1 t c1 psi).
Proof.
  intros ? ? ? ? H I. rewrite !act2_act2_bd by auto. apply act1_comm_same, H.
Qed.
(** outer target = inner control, outer gate diagonal *)
Lemma bd_target_control m1 m2 x c1 t2 psi : x <> c1 -> t2 <> x -> t2 <> c1 -> bdiag m1 -> bdiag m2 ->
  (forall a, famZ (sub m1 a)) ->
  act2 m1 x c1 (act2 m2 t2 x psi) == act2 m2 t2 x (act2 m1 x c1 psi).
Proof.
  intros N1 N2 N3 B1 B2 HZ I. rewrite (act2_act2_bd m2 t2 x m1 x c1) by auto.
  rewrite (act2_bdiag m1) by assumption. rewrite (act1_famZ (sub m1 (bit I c1)) x (act2 m2 t2 x psi) I) by apply HZ.
  rewrite (act2_bdiag m2) by auto.
  assert (E : forall b, act1 (sub m1 (bit I c1)) x psi (upd I t2 b) =
     sub m1 (bit I c1) (b2n (bit I x)) (b2n (bit I x)) * psi (upd I t2 b)).
  { intros b. rewrite act1_famZ by apply HZ. rewrite bit_upd_other by congruence. reflexivity. }
  unfold act1 at 2. rewrite !E. unfold act1. ring.
Qed.
(** one-qubit gate on the target / on the control *)
Lemma bd_1q_target A m t c psi : t <> c -> bdiag m -> (forall b, commute2 A (sub m b)) ->
  act1 A t (act2 m t c psi) == act2 m t c (act1 A t psi).
Proof.
  intros N B H I. rewrite act2_bdiag by assumption.
  transitivity (act1 A t (act1 (sub m (bit I c)) t psi) I).
  - unfold act1 at 1. rewrite !act2_bdiag by assumption. rewrite !bit_upd_other by congruence. reflexivity.
  - apply act1_comm_same, H.
Qed.
Lemma bd_1q_control A m t c psi : t <> c -> bdiag m -> famZ A ->
  act1 A c (act2 m t c psi) == act2 m t c (act1 A c psi).
Proof.
  intros N B H I. rewrite (act1_famZ A c (act2 m t c psi) I) by exact H. rewrite !act2_bdiag by assumption.
  assert (E : forall b, act1 A c psi (upd I t b) = A (b2n (bit I c)) (b2n (bit I c)) * psi (upd I t b)).
  { intros b. rewrite act1_famZ by exact H. rewrite bit_upd_other by congruence. reflexivity. }
  unfold act1 at 2. rewrite !E. unfold act1. ring.
Qed.
(** disjoint qubits *)
Lemma disjoint_1_2 A m u t c psi : u <> t -> u <> c -> 
  act1 A u (act2 m t c psi) == act2 m t c (act1 A u psi).
Proof.
  intros N1 N2 I. unfold act1, act2.
  rewrite !bit_upd_other by congruence.
  assert (P : forall x a b, upd (upd (upd I u x) c a) t b = upd (upd (upd I c a) t b) u x).
  { intros. bitsolve. }
  rewrite !P. ring.
Qed.
Lemma disjoint_2_2 m1 m2 t1 c1 t2 c2 psi : t1 <> t2 -> t1 <> c2 -> c1 <> t2 -> c1 <> c2 ->
  act2 m1 t1 c1 (act2 m2 t2 c2 psi) == act2 m2 t2 c2 (act2 m1 t1 c1 psi).
Proof.
  intros N1 N2 N3 N4 I. unfold act2.
  rewrite !bit_upd_other by congruence.
  assert (P : forall a b a' b', upd (upd (upd (upd I c1 a) t1 b) c2 a') t2 b' = upd (upd (upd (upd I c2 a') t2 b') c1 a) t1 b).
  { intros. bitsolve. }
  rewrite !P. ring.
Qed.
(** both qubits shared, same orientation: matrices commute *)
Definition commute4 (A B : mat) : Prop := meq 4 (mmul 4 A B) (mmul 4 B A).
Lemma act2_comm_same m1 m2 t c psi : t <> c -> commute4 m1 m2 ->
  act2 m1 t c (act2 m2 t c psi) == act2 m2 t c (act2 m1 t c psi).
Proof.
  intros N H. eapply seq_trans; [apply act2_mmul; exact N|]. eapply seq_trans; [apply act2_meq; exact H|].
  apply seq_sym, act2_mmul; exact N.
Qed.
(** opposite orientation: exchange the roles of the qubits *)
Definition sw (i : nat) : nat := match i with 1 => 2 | 2 => 1 | _ => i end.
Definition mswap (m : mat) : mat := fun i j => m (sw i) (sw j).
Lemma act2_orient m t c psi : t <> c -> act2 m t c psi == act2 (mswap m) c t psi.
Proof.
  intros N I. unfold act2, mswap. rewrite !(upd_comm I c _ t) by congruence.
  destruct (bit I c), (bit I t); cbn [b2n Nat.mul Nat.add sw]; ring.
Qed.
Lemma sym_swap ty p : symmetrical_2q ty = true -> meq 4 (mswap (type_mat ty p)) (type_mat ty p).
Proof.
  destruct ty; intros H; try discriminate H; cbn [type_mat]; intros i j Hi Hj; revert i Hi j Hj;
  refine (lt4_cases _ _ _ _ _); refine (lt4_cases _ _ _ _ _); reflexivity.
Qed.

(** *** library two-qubit gates *)
Lemma type_ctrl ty u p : controlled_to_1q ty = Ok u ->
  bdiag (type_mat ty p) /\
  exists cv, meq 2 (sub (type_mat ty p) cv) (type_mat u p) /\ meq 2 (sub (type_mat ty p) (negb cv)) mid.
Proof.
  intros H. destruct ty; try discriminate H; injection H as <-; cbn [type_mat].
  all: split; [repeat split; try reflexivity; unfold madj; simpl; apply Cconj_C0|].
  2: exists false; split; [intros i j Hi Hj; revert i Hi j Hj; refine (lt2_cases _ _ _); refine (lt2_cases _ _ _); reflexivity
       | intros i j Hi Hj; revert i Hi j Hj; refine (lt2_cases _ _ _); refine (lt2_cases _ _ _); reflexivity].
  all: exists true; split; [intros i j Hi Hj; revert i Hi j Hj; refine (lt2_cases _ _ _); refine (lt2_cases _ _ _); try reflexivity
       | intros i j Hi Hj; revert i Hi j Hj; refine (lt2_cases _ _ _); refine (lt2_cases _ _ _); try reflexivity;
         unfold sub, madj; simpl; try apply Cconj_C0; try apply Cconj_C1].
Qed.

Lemma type_ctrl_comm1 a ty u p q : controlled_to_1q ty = Ok u -> pairs_commute a u = true ->
  bdiag (type_mat ty q) /\ forall b, commute2 (type_mat a p) (sub (type_mat ty q) b).
Proof.
  intros HC HP. destruct (type_ctrl ty u q HC) as (HB & cv & H1 & H2). split; [exact HB|].
  intros b. destruct (Bool.bool_dec b cv) as [->|N].
  - eapply commute2_meq; [apply meq_refl| |apply (pairs_commute_sound a u p q HP)].
    intros i j Hi Hj; symmetry; apply H1; assumption.
  - assert (b = negb cv) by (destruct b, cv; simpl; congruence). subst b.
    eapply commute2_meq; [apply meq_refl| |apply commute2_sym, commute2_mid].
    intros i j Hi Hj; symmetry; apply H2; assumption.
Qed.
Lemma type_ctrl_comm2 ty1 ty2 u1 u2 p q : controlled_to_1q ty1 = Ok u1 -> controlled_to_1q ty2 = Ok u2 ->
  pairs_commute u1 u2 = true ->
  forall a b, commute2 (sub (type_mat ty1 p) a) (sub (type_mat ty2 q) b).
Proof.
  intros HC1 HC2 HP a b. destruct (type_ctrl ty1 u1 p HC1) as (HB & cv & H1 & H2).
  destruct (type_ctrl_comm1 u1 ty2 u2 p q HC2 HP) as (_ & H3).
  destruct (Bool.bool_dec a cv) as [->|N].
  - eapply commute2_meq; [|apply meq_refl|apply (H3 b)]. intros i j Hi Hj; symmetry; apply H1; assumption.
  - assert (a = negb cv) by (destruct a, cv; simpl; congruence). subst a.
    eapply commute2_meq; [|apply meq_refl|apply commute2_mid]. intros i j Hi Hj; symmetry; apply H2; assumption.
Qed.
Lemma type_ctrl_diag ty u p : controlled_to_1q ty = Ok u -> diagonal_1q u = true ->
  forall a, famZ (sub (type_mat ty p) a).
Proof.
  intros HC HP a. destruct (type_ctrl ty u p HC) as (HB & cv & H1 & H2).
  pose proof (famZ_type u p HP) as [Z1 Z2].
  destruct (Bool.bool_dec a cv) as [->|N].
  - split; rewrite H1 by lia; assumption.
  - assert (a = negb cv) by (destruct a, cv; simpl; congruence). subst a. split; rewrite H2 by lia; reflexivity.
Qed.

(** everything except SWAP and A is block diagonal in its control *)
Lemma lib_bdiag g : lib_shape g -> gtarget g <> gcontrol g -> is_type TSWAP g = false -> is_type TA g = false ->
  bdiag (gmat g).
Proof.
  intros HL N H1 H2. unfold is_type in *. destruct HL as [(ty & p & HS)|(m & (_ & _ & Hm) & _)].
  - rewrite (sg_mat _ _ _ HS). rewrite (sg_type _ _ _ HS) in *.
    assert (HQ : type_1q ty = false) by (rewrite <- (sg_q _ _ _ HS); apply Nat.eqb_neq; exact N).
    pose proof (sg_def _ _ _ HS).
    destruct ty; try discriminate; try congruence; cbn [type_mat];
      repeat split; try reflexivity; unfold madj; simpl; apply Cconj_C0.
  - rewrite Hm. repeat split.
Qed.
Lemma lib_type_std g : lib_shape g -> gate_type g <> TUndefined -> exists p, std_gate (gate_type g) p g.
Proof.
  intros [(ty & p & HS)|(m & (HL & _) & _)] H.
  - exists p. rewrite (sg_type _ _ _ HS). exact HS.
  - exfalso; apply H. unfold gate_type. destruct HL as [-> | ->]; reflexivity.
Qed.
Lemma ctrl_defined ty u : controlled_to_1q ty = Ok u -> ty <> TUndefined.
Proof. intros H ->; discriminate H. Qed.

(** [g1] and [g2] commute as operations on states *)
Definition gates_commute (g1 g2 : gate) : Prop :=
  forall psi, gate_act g1 (gate_act g2 psi) == gate_act g2 (gate_act g1 psi).
Lemma gates_commute_sym g1 g2 : gates_commute g1 g2 -> gates_commute g2 g1.
Proof. intros H psi. apply seq_sym, H. Qed.

Lemma gate_act_1 g psi : gtarget g = gcontrol g -> gate_act g psi = act1 (gmat g) (gtarget g) psi.
Proof. intros H. unfold gate_act. rewrite H, Nat.eqb_refl; reflexivity. Qed.
Lemma gate_act_2 g psi : gtarget g <> gcontrol g -> gate_act g psi = act2 (gmat g) (gtarget g) (gcontrol g) psi.
Proof. intros H. unfold gate_act. apply Nat.eqb_neq in H. rewrite H; reflexivity. Qed.

(** number of shared qubits *)
Lemma common_zero g1 g2 :
  length (filter (fun q => existsb (Nat.eqb q) (qubit_set g2)) (qubit_set g1)) = 0%nat ->
  gtarget g1 <> gtarget g2 /\ gtarget g1 <> gcontrol g2 /\ gcontrol g1 <> gtarget g2 /\ gcontrol g1 <> gcontrol g2.
Proof.
  intros H. apply length_zero_iff_nil in H.
  assert (G : forall q, In q (qubit_set g1) -> In q (qubit_set g2) -> False).
  { intros q H1 H2. assert (F : In q (filter (fun q => existsb (Nat.eqb q) (qubit_set g2)) (qubit_set g1))).
    { apply filter_In. split; [exact H1|]. apply existsb_exists. exists q; split; [exact H2|apply Nat.eqb_refl]. }
    rewrite H in F. exact F. }
  assert (M : forall g, In (gtarget g) (qubit_set g) /\ In (gcontrol g) (qubit_set g)).
  { intros g. unfold qubit_set. destruct (Nat.eqb_spec (gtarget g) (gcontrol g)) as [E|E].
    - rewrite E. split; left; reflexivity.
    - split; [left; reflexivity|right; left; reflexivity]. }
  destruct (M g1) as [A1 A2], (M g2) as [B1 B2].
  repeat split; intros E; [apply (G (gtarget g1))|apply (G (gtarget g1))|apply (G (gcontrol g1))|apply (G (gcontrol g1))];
    congruence.
Qed.
Lemma disjoint_commute g1 g2 :
  gtarget g1 <> gtarget g2 -> gtarget g1 <> gcontrol g2 -> gcontrol g1 <> gtarget g2 -> gcontrol g1 <> gcontrol g2 ->
  gates_commute g1 g2.
Proof.
  intros N1 N2 N3 N4 psi.
  destruct (Nat.eq_dec (gtarget g1) (gcontrol g1)) as [E1|E1]; destruct (Nat.eq_dec (gtarget g2) (gcontrol g2)) as [E2|E2].
  - rewrite !gate_act_1 by assumption. apply act1_comm_diff; exact N1.
  - rewrite !(gate_act_1 g1), !(gate_act_2 g2) by assumption. apply disjoint_1_2; assumption.
  - rewrite !(gate_act_2 g1), !(gate_act_1 g2) by assumption. apply seq_sym, disjoint_1_2; congruence.
  - rewrite !gate_act_2 by assumption. apply disjoint_2_2; assumption.
Qed.

Lemma qs_len g : length (qubit_set g) = if Nat.eqb (gtarget g) (gcontrol g) then 1%nat else 2%nat.
Proof. unfold qubit_set. destruct (Nat.eqb _ _); reflexivity. Qed.

Lemma symA_comm ty p q : symmetrical_2q ty = true -> ty <> TSWAP -> commute4 (type_mat ty p) (m_A q).
Proof.
  intros H N. destruct ty; try discriminate H; try congruence; cbn [type_mat];
  intros i j Hi Hj; revert i Hi j Hj; refine (lt4_cases _ _ _ _ _); refine (lt4_cases _ _ _ _ _);
  unfold mmul; cbn [seq]; rewrite !Csum_cons, !Csum_nil; unfold m_cZ, m_cR, m_A, mk44; cbn [nth]; ring.
Qed.
Lemma sym_comm t1 t2 p q : symmetrical_2q t1 = true -> symmetrical_2q t2 = true -> commute4 (type_mat t1 p) (type_mat t2 q).
Proof.
  intros H1 H2. destruct t1; try discriminate H1; destruct t2; try discriminate H2; cbn [type_mat];
  intros i j Hi Hj; revert i Hi j Hj; refine (lt4_cases _ _ _ _ _); refine (lt4_cases _ _ _ _ _);
  unfold mmul; cbn [seq]; rewrite !Csum_cons, !Csum_nil; unfold m_cZ, m_cR, m_SWAP, mk44; cbn [nth]; ring.
Qed.
(** a symmetric gate may be read in either orientation *)
Lemma sym_reorient g ty p psi t c : std_gate ty p g -> symmetrical_2q ty = true -> gtarget g <> gcontrol g ->
  (gtarget g = t /\ gcontrol g = c \/ gtarget g = c /\ gcontrol g = t) ->
  gate_act g psi == act2 (type_mat ty p) t c psi.
Proof.
  intros HS HY N HO. rewrite gate_act_2 by exact N. rewrite (sg_mat _ _ _ HS).
  destruct HO as [[-> ->]|[Et Ec]]; [apply seq_refl|]. rewrite Et, Ec in *.
  eapply seq_trans; [apply act2_orient; exact N|]. apply act2_meq, sym_swap; exact HY.
Qed.
Lemma sym_pair_comm g1 g2 ty p : std_gate ty p g1 -> symmetrical_2q ty = true ->
  gtarget g1 <> gcontrol g1 -> gtarget g2 <> gcontrol g2 ->
  (gtarget g1 = gtarget g2 /\ gcontrol g1 = gcontrol g2 \/ gtarget g1 = gcontrol g2 /\ gcontrol g1 = gtarget g2) ->
  commute4 (type_mat ty p) (gmat g2) -> gates_commute g1 g2.
Proof.
  intros HS HY N1 N2 HO HC psi.
  assert (A : forall phi, gate_act g1 phi == act2 (type_mat ty p) (gtarget g2) (gcontrol g2) phi).
  { intros phi. apply sym_reorient; auto. }
  eapply seq_trans; [apply A|]. rewrite gate_act_2 by exact N2.
  eapply seq_trans; [apply act2_comm_same; [exact N2|exact HC]|].
  rewrite (gate_act_2 g2) by exact N2. apply act2_ext, seq_sym, A.
Qed.

Ltac sharing_tac g1 g2 :=
  unfold qubit_set in *;
  destruct (Nat.eqb_spec (gtarget g1) (gcontrol g1)); try congruence;
  destruct (Nat.eqb_spec (gtarget g2) (gcontrol g2)); try congruence;
  cbn [filter existsb] in *;
  repeat match goal with H : context [Nat.eqb ?a ?b] |- _ => destruct (Nat.eqb_spec a b); cbn [orb filter length] in * end.

Lemma interaction_commute g1 g2 k : lib_shape g1 -> lib_shape g2 ->
  evaluate_gate_interaction g1 g2 = Ok (true, k) -> gates_commute g1 g2.
Proof.
  intros L1 L2. unfold evaluate_gate_interaction.
  set (common := length (filter _ _)).
  destruct (Nat.eqb_spec common 0) as [E0|E0].
  { intros _. destruct (common_zero g1 g2 E0) as (? & ? & ? & ?). apply disjoint_commute; assumption. }
  rewrite !qs_len.
  destruct (Nat.eqb_spec (gtarget g1) (gcontrol g1)) as [E1|E1];
  destruct (Nat.eqb_spec (gtarget g2) (gcontrol g2)) as [E2|E2]; cbn [Nat.mul Nat.add Nat.eqb].
  - (* 1 x 1 *)
    assert (ET : gtarget g1 = gtarget g2).
    { unfold common in E0. sharing_tac g1 g2; simpl in E0; congruence. }
    assert (KEY : forall p q, std_gate (gate_type g1) p g1 -> std_gate (gate_type g2) q g2 ->
       pairs_commute (gate_type g1) (gate_type g2) = true -> gates_commute g1 g2).
    { intros p q S1 S2 HP psi. rewrite !gate_act_1 by assumption. rewrite <- ET. apply act1_comm_same.
      rewrite (sg_mat _ _ _ S1), (sg_mat _ _ _ S2). apply pairs_commute_sound; exact HP. }
    assert (D1 : exists p, std_gate (gate_type g1) p g1).
    { destruct L1 as [(ty & p & HS)|(m & (_ & N & _) & _)]; [|contradiction]. exists p. rewrite (sg_type _ _ _ HS); exact HS. }
    assert (D2 : exists p, std_gate (gate_type g2) p g2).
    { destruct L2 as [(ty & p & HS)|(m & (_ & N & _) & _)]; [|contradiction]. exists p. rewrite (sg_type _ _ _ HS); exact HS. }
    destruct D1 as [p S1], D2 as [q S2].
    destruct (phase_1q (gate_type g1) && phase_1q (gate_type g2)) eqn:EP.
    + intros _. apply (KEY p q S1 S2). apply andb_true_iff in EP. destruct EP as [P1 P2].
      destruct (gate_type g1), (gate_type g2); try discriminate P1; try discriminate P2; reflexivity.
    + intros H. injection H as H _. apply (KEY p q S1 S2 H).
  - (* 1 x 2 *)
    destruct (is_type TSWAP g1 || is_type TSWAP g2 || is_type TA g1 || is_type TA g2) eqn:ES; [discriminate|].
    apply orb_false_iff in ES. destruct ES as [ES ES4]. apply orb_false_iff in ES. destruct ES as [ES ES3].
    apply orb_false_iff in ES. destruct ES as [ES1 ES2].
    pose proof (lib_bdiag g2 L2 E2 ES2 ES4) as B2.
    destruct (Nat.eqb_spec (gtarget g1) (gtarget g2)) as [ET|ET].
    + destruct (controlled_to_1q (gate_type g2)) as [u|] eqn:EC; [|discriminate]. cbn [bind]. intros H. injection H as H _.
      destruct (lib_type_std g2 L2 (ctrl_defined _ _ EC)) as [q S2].
      assert (D1 : exists p, std_gate (gate_type g1) p g1).
      { destruct L1 as [(ty & p & HS)|(m & (_ & N & _) & _)]; [|contradiction]. exists p. rewrite (sg_type _ _ _ HS); exact HS. }
      destruct D1 as [p S1].
      intros psi. rewrite !(gate_act_1 g1), !(gate_act_2 g2) by assumption. rewrite ET.
      apply bd_1q_target; auto. intros b. rewrite (sg_mat _ _ _ S1), (sg_mat _ _ _ S2).
      apply (type_ctrl_comm1 _ _ _ p q EC H).
    + intros H. injection H as H _.
      assert (ECt : gtarget g1 = gcontrol g2).
      { unfold common in E0. sharing_tac g1 g2; simpl in E0; congruence. }
      assert (D1 : exists p, std_gate (gate_type g1) p g1).
      { destruct L1 as [(ty & p & HS)|(m & (_ & N & _) & _)]; [|contradiction]. exists p. rewrite (sg_type _ _ _ HS); exact HS. }
      destruct D1 as [p S1]. intros psi. rewrite !(gate_act_1 g1), !(gate_act_2 g2) by assumption. rewrite ECt.
      apply bd_1q_control; auto. rewrite (sg_mat _ _ _ S1). apply famZ_type; exact H.
  - (* 2 x 1 *)
    destruct (is_type TSWAP g1 || is_type TSWAP g2 || is_type TA g1 || is_type TA g2) eqn:ES; [discriminate|].
    apply orb_false_iff in ES. destruct ES as [ES ES4]. apply orb_false_iff in ES. destruct ES as [ES ES3].
    apply orb_false_iff in ES. destruct ES as [ES1 ES2].
    pose proof (lib_bdiag g1 L1 E1 ES1 ES3) as B1.
    destruct (Nat.eqb_spec (gtarget g2) (gtarget g1)) as [ET|ET].
    + destruct (controlled_to_1q (gate_type g1)) as [u|] eqn:EC; [|discriminate]. cbn [bind]. intros H. injection H as H _.
      destruct (lib_type_std g1 L1 (ctrl_defined _ _ EC)) as [q S1].
      assert (D2 : exists p, std_gate (gate_type g2) p g2).
      { destruct L2 as [(ty & p & HS)|(m & (_ & N & _) & _)]; [|contradiction]. exists p. rewrite (sg_type _ _ _ HS); exact HS. }
      destruct D2 as [p S2].
      intros psi. rewrite !(gate_act_1 g2), !(gate_act_2 g1) by assumption. rewrite ET. apply seq_sym.
      apply bd_1q_target; auto. intros b. rewrite (sg_mat _ _ _ S1), (sg_mat _ _ _ S2).
      apply (type_ctrl_comm1 _ _ _ p q EC H).
    + intros H. injection H as H _.
      assert (ECt : gtarget g2 = gcontrol g1).
      { unfold common in E0. sharing_tac g1 g2; simpl in E0; congruence. }
      assert (D2 : exists p, std_gate (gate_type g2) p g2).
      { destruct L2 as [(ty & p & HS)|(m & (_ & N & _) & _)]; [|contradiction]. exists p. rewrite (sg_type _ _ _ HS); exact HS. }
      destruct D2 as [p S2]. intros psi. rewrite !(gate_act_1 g2), !(gate_act_2 g1) by assumption. rewrite ECt. apply seq_sym.
      apply bd_1q_control; auto. rewrite (sg_mat _ _ _ S2). apply famZ_type; exact H.
  - (* 2 x 2 *)
    destruct (Nat.eqb_spec common 1) as [EQ1|EQ1].
    + destruct (is_type TSWAP g1 || is_type TSWAP g2 || is_type TA g1 || is_type TA g2) eqn:ES; [discriminate|].
      apply orb_false_iff in ES. destruct ES as [ES ES4]. apply orb_false_iff in ES. destruct ES as [ES ES3].
      apply orb_false_iff in ES. destruct ES as [ES1 ES2].
      pose proof (lib_bdiag g1 L1 E1 ES1 ES3) as B1. pose proof (lib_bdiag g2 L2 E2 ES2 ES4) as B2.
      destruct (Nat.eqb_spec (gcontrol g1) (gcontrol g2)) as [C12|C12].
      * intros _ psi. rewrite !gate_act_2 by assumption. rewrite C12 in *.
        assert (gtarget g1 <> gtarget g2).
        { intros ET. unfold common, qubit_set in EQ1. apply Nat.eqb_neq in E1, E2.
          rewrite C12, E1, E2, ET in EQ1. cbn [filter existsb] in EQ1.
          rewrite !Nat.eqb_refl, ?orb_true_r in EQ1. simpl in EQ1. rewrite ?orb_true_r in EQ1. simpl in EQ1. discriminate. }
        apply bd_same_control; auto.
      * destruct (Nat.eqb_spec (gtarget g1) (gtarget g2)) as [T12|T12].
        -- destruct (controlled_to_1q (gate_type g1)) as [a|] eqn:EA; [|discriminate].
           destruct (controlled_to_1q (gate_type g2)) as [b|] eqn:EB; [|discriminate]. cbn [bind].
           intros H. injection H as H _.
           destruct (lib_type_std g1 L1 (ctrl_defined _ _ EA)) as [p S1].
           destruct (lib_type_std g2 L2 (ctrl_defined _ _ EB)) as [q S2].
           intros psi. rewrite !gate_act_2 by assumption. rewrite T12 in *.
           apply bd_same_target; auto. rewrite (sg_mat _ _ _ S1), (sg_mat _ _ _ S2).
           apply (type_ctrl_comm2 _ _ _ _ p q EA EB H).
        -- destruct (Nat.eqb_spec (gtarget g1) (gcontrol g2)) as [TC|TC].
           ++ destruct (controlled_to_1q (gate_type g1)) as [a|] eqn:EA; [|discriminate]. cbn [bind].
              intros H. injection H as H _. destruct (lib_type_std g1 L1 (ctrl_defined _ _ EA)) as [p S1].
              assert (gtarget g2 <> gcontrol g1).
              { intros ET. unfold common, qubit_set in EQ1. apply Nat.eqb_neq in E1, E2.
                rewrite E1, E2, TC, ET in EQ1. cbn [filter existsb] in EQ1.
                rewrite !Nat.eqb_refl, ?orb_true_r in EQ1. simpl in EQ1. rewrite ?orb_true_r in EQ1. simpl in EQ1. discriminate. }
              intros psi. rewrite !gate_act_2 by assumption. rewrite TC in *.
              apply bd_target_control; auto. rewrite (sg_mat _ _ _ S1). apply (type_ctrl_diag _ _ p EA H).
           ++ destruct (controlled_to_1q (gate_type g2)) as [b|] eqn:EB; [|discriminate]. cbn [bind].
              intros H. injection H as H _. destruct (lib_type_std g2 L2 (ctrl_defined _ _ EB)) as [q S2].
              assert (CT : gtarget g2 = gcontrol g1).
              { unfold common in E0. sharing_tac g1 g2; simpl in E0; congruence. }
              intros psi. rewrite !gate_act_2 by assumption. rewrite CT in *. apply seq_sym.
              apply bd_target_control; auto. rewrite (sg_mat _ _ _ S2). apply (type_ctrl_diag _ _ q EB H).
    + (* both qubits shared *)
      assert (HO : gtarget g1 = gtarget g2 /\ gcontrol g1 = gcontrol g2 \/ gtarget g1 = gcontrol g2 /\ gcontrol g1 = gtarget g2).
      { unfold common in E0, EQ1. sharing_tac g1 g2; simpl in *; try congruence; try lia; auto. }
      destruct (symmetrical_2q (gate_type g1) && symmetrical_2q (gate_type g2)) eqn:EY.
      * intros _. apply andb_true_iff in EY. destruct EY as [Y1 Y2].
        assert (U1 : gate_type g1 <> TUndefined) by (intros H; rewrite H in Y1; discriminate).
        assert (U2 : gate_type g2 <> TUndefined) by (intros H; rewrite H in Y2; discriminate).
        destruct (lib_type_std g1 L1 U1) as [p S1]. destruct (lib_type_std g2 L2 U2) as [q S2].
        apply (sym_pair_comm g1 g2 _ p S1 Y1 E1 E2 HO). rewrite (sg_mat _ _ _ S2). apply sym_comm; assumption.
      * destruct (is_type TSWAP g1 || is_type TSWAP g2) eqn:ESW; [discriminate|].
        apply orb_false_iff in ESW. destruct ESW as [SW1 SW2].
        destruct (is_type TA g1 || is_type TA g2) eqn:EA.
        -- destruct (symmetrical_2q (gate_type g1) || symmetrical_2q (gate_type g2)) eqn:EY2; [|discriminate]. intros _.
           unfold is_type in *.
           destruct (symmetrical_2q (gate_type g1)) eqn:Y1; cbn [orb andb] in *.
           ++ assert (A2 : gate_type g2 = TA).
              { destruct (gtype_eqb_spec (gate_type g2) TA); [assumption|].
                destruct (gtype_eqb_spec (gate_type g1) TA) as [E|]; [rewrite E in Y1; discriminate Y1|discriminate EA]. }
              assert (U1 : gate_type g1 <> TUndefined) by (intros H; rewrite H in Y1; discriminate).
              destruct (lib_type_std g1 L1 U1) as [p S1].
              destruct (lib_type_std g2 L2) as [q S2]; [congruence|]. rewrite A2 in S2.
              apply (sym_pair_comm g1 g2 _ p S1 Y1 E1 E2 HO). rewrite (sg_mat _ _ _ S2). apply symA_comm; [exact Y1|].
              destruct (gtype_eqb_spec (gate_type g1) TSWAP); congruence.
           ++ assert (A1 : gate_type g1 = TA).
              { destruct (gtype_eqb_spec (gate_type g1) TA); [assumption|].
                destruct (gtype_eqb_spec (gate_type g2) TA) as [E|]; [rewrite E in EY2; discriminate EY2|discriminate EA]. }
              assert (U2 : gate_type g2 <> TUndefined) by (intros H; rewrite H in EY2; discriminate).
              destruct (lib_type_std g2 L2 U2) as [p S2].
              destruct (lib_type_std g1 L1) as [q S1]; [congruence|]. rewrite A1 in S1.
              apply gates_commute_sym. apply (sym_pair_comm g2 g1 _ p S2 EY2 E2 E1).
              { destruct HO as [[? ?]|[? ?]]; [left|right]; split; congruence. }
              rewrite (sg_mat _ _ _ S1). apply symA_comm; [exact EY2|].
              destruct (gtype_eqb_spec (gate_type g2) TSWAP); congruence.
        -- apply orb_false_iff in EA. destruct EA as [EA1 EA2].
           pose proof (lib_bdiag g1 L1 E1 SW1 EA1) as B1. pose proof (lib_bdiag g2 L2 E2 SW2 EA2) as B2.
           destruct (Nat.eqb_spec (gtarget g1) (gtarget g2)) as [T12|T12].
           ++ destruct (controlled_to_1q (gate_type g1)) as [a|] eqn:EC1; [|discriminate].
              destruct (controlled_to_1q (gate_type g2)) as [b|] eqn:EC2; [|discriminate]. cbn [bind].
              intros H. injection H as H _.
              destruct (lib_type_std g1 L1 (ctrl_defined _ _ EC1)) as [p S1].
              destruct (lib_type_std g2 L2 (ctrl_defined _ _ EC2)) as [q S2].
              intros psi. rewrite !gate_act_2 by assumption. rewrite T12 in *.
              apply bd_same_target; auto. rewrite (sg_mat _ _ _ S1), (sg_mat _ _ _ S2).
              apply (type_ctrl_comm2 _ _ _ _ p q EC1 EC2 H).
           ++ destruct HO as [[H1 _]|[H1 H2]]; [contradiction|].
              destruct (controlled_to_1q (gate_type g1)) as [a|] eqn:EC1; [|discriminate]. cbn [bind].
              destruct (diagonal_1q a) eqn:DA; [|discriminate].
              destruct (controlled_to_1q (gate_type g2)) as [b|] eqn:EC2; [|discriminate]. cbn [bind].
              intros H. injection H as H _.
              destruct (lib_type_std g1 L1 (ctrl_defined _ _ EC1)) as [p S1].
              destruct (lib_type_std g2 L2 (ctrl_defined _ _ EC2)) as [q S2].
              assert (Z1 : forall x, famZ (sub (gmat g1) x)) by (rewrite (sg_mat _ _ _ S1); apply (type_ctrl_diag _ _ p EC1 DA)).
              assert (Z2 : forall x, famZ (sub (gmat g2) x)) by (rewrite (sg_mat _ _ _ S2); apply (type_ctrl_diag _ _ q EC2 H)).
              intros psi I. rewrite !gate_act_2 by assumption. 
              rewrite !act2_bdiag by assumption. rewrite !act1_famZ by auto. rewrite !act2_bdiag by assumption.
              rewrite !act1_famZ by auto. ring.
Qed.
