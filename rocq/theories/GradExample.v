(** A two-parameter example on three qubits: one electron, excitations 0 -> 1 and 1 -> 2, and the
    Hamiltonian X0 X1.  With two Trotter steps the array of measure_gradient is not the gradient. *)
From Coq Require Import Reals String List Arith Bool Lia Lra Sorted FunctionalExtensionality.
From Verif Require Import CBase Result Bits Spec OpSpec GateModel ComputerModel LoopProofs SafeProofs LibProofs SimProofs CircuitModel PauliProofs OperatorModel SQSpec SQModel SQPoolModel SQPoolOps PyModel PyApply GateEval ThreeQubit ExpSpec ExpProofs ExpCircuit TwoLevel CompactGsd CompactProofs AnsatzSpec AnsatzModel AnsatzProofs GradModel GradSpec GradCalc.
Import ListNotations.
Local Open Scope nat_scope.

Definition K1 := Antihermitian 1 [1] [0].
Definition K2 := Antihermitian 1 [2] [1].
(** the state a|100> + b|010> + c|001> *)
Definition st (a b c : R) : state := fun I => if I =? 1 then RtoC a else if I =? 2 then RtoC b else if I =? 4 then RtoC c else C0.
Lemma st_eq a b c a' b' c' : a = a' -> b = b' -> c = c' -> st a b c = st a' b' c'.
Proof. now intros -> -> ->. Qed.

Definition sw (p h I : nat) : nat := flip (flip I h) p.
Definition kk (p h I : nat) : R := if bit I p then (if bit I h then 0%R else 1%R) else (if bit I h then (-1)%R else 0%R).
Lemma sw_sw p h I : p <> h -> sw p h (sw p h I) = I.
Proof. intros N. unfold sw. apply bits_ext. intros j. rewrite !bit_flip. destruct (j =? p), (j =? h); now destruct (bit I j). Qed.
Lemma kk_odd p h : p <> h -> odd_under (sw p h) (kk p h).
Proof.
  intros N I. unfold kk, sw. rewrite !bit_flip. rewrite !Nat.eqb_refl. rewrite (proj2 (Nat.eqb_neq p h) N), (proj2 (Nat.eqb_neq h p)) by auto. destruct (bit I p), (bit I h); cbn [negb]; ring.
Qed.
Lemma act_single p h psi I : p <> h -> act true (Antihermitian 1 [p] [h]) psi I = gen (sw p h) (kk p h) psi I.
Proof.
  intros N. unfold act, qexc_act, Antihermitian, gen, kk. rewrite !Csum_cons, Csum_nil. unfold fcoef, fcre, fann. cbn [fst snd]. unfold qladder_act, raise, lower. cbn [fold_right]. unfold raise, lower.
  assert (B : forall j k b, j <> k -> bit (upd I j b) k = bit I k) by (intros j k b Nj; rewrite bit_upd; destruct (Nat.eqb_spec k j); [congruence|reflexivity]).
  rewrite !B by auto.
  assert (E : forall j k b1 b2, j <> k -> bit I j = negb b1 -> bit I k = negb b2 -> upd (upd I j b1) k b2 = flip (flip I j) k).
  { intros j k b1 b2 Nj E1 E2. apply bits_ext. intros i. rewrite !bit_upd, !bit_flip. destruct (Nat.eqb_spec i k) as [->|]; [rewrite (proj2 (Nat.eqb_neq k j)) by auto; rewrite E2; now destruct b2|]. destruct (Nat.eqb_spec i j) as [->|]; [rewrite E1; now destruct b1|reflexivity]. }
  assert (FC : flip (flip I p) h = sw p h I). { unfold sw. apply bits_ext. intros i. rewrite !bit_flip. destruct (i =? p), (i =? h); reflexivity. }
  destruct (bit I p) eqn:EP, (bit I h) eqn:EH.
  - apply C_ext; cbn; ring.
  - rewrite (E p h false true N) by assumption. rewrite FC. apply C_ext; cbn; ring.
  - rewrite (E h p false true) by (auto; assumption). fold (sw p h I). apply C_ext; cbn; ring.
  - apply C_ext; cbn; ring.
Qed.
Lemma exp_single p h x psi : p <> h -> is_exp (RtoC x) (act true (Antihermitian 1 [p] [h])) psi (rot (sw p h) (fun I => (x * kk p h I)%R) psi).
Proof.
  intros N. apply (is_exp_op _ (gen (sw p h) (kk p h))); [intros q I; symmetry; now apply act_single|]. apply gen_exp; [intros I; now apply sw_sw|now apply kk_odd].
Qed.
Lemma exp1 x a b c : is_exp (RtoC x) (act true K1) (st a b c) (st (a * cos x - b * sin x) (a * sin x + b * cos x) c).
Proof.
  eapply is_exp_res; [|apply (exp_single 1 0 x (st a b c)); lia]. intros I. unfold rot.
  destruct (Nat.eqb_spec I 1) as [->|N1]; [change (sw 1 0 1) with 2; change (kk 1 0 1) with (-1)%R; cbn [st Nat.eqb]; replace (x * -1)%R with (- x)%R by ring; rewrite cos_neg, sin_neg; apply C_ext; cbn; ring|].
  destruct (Nat.eqb_spec I 2) as [->|N2]; [change (sw 1 0 2) with 1; change (kk 1 0 2) with 1%R; cbn [st Nat.eqb]; rewrite Rmult_1_r; apply C_ext; cbn; ring|].
  destruct (Nat.eqb_spec I 4) as [->|N4]; [change (kk 1 0 4) with 0%R; rewrite Rmult_0_r, cos_0, sin_0; cbn [st Nat.eqb]; apply C_ext; cbn; ring|].
  assert (Z : forall a b c J, J <> 1 -> J <> 2 -> J <> 4 -> st a b c J = C0) by (intros ? ? ? J J1 J2 J4; unfold st; now rewrite (proj2 (Nat.eqb_neq _ _) J1), (proj2 (Nat.eqb_neq _ _) J2), (proj2 (Nat.eqb_neq _ _) J4)).
  rewrite !(Z _ _ _ I) by assumption. assert (S1 : sw 1 0 I <> 1) by (intros E; apply N2; rewrite <- (sw_sw 1 0 I), E by lia; reflexivity). assert (S2 : sw 1 0 I <> 2) by (intros E; apply N1; rewrite <- (sw_sw 1 0 I), E by lia; reflexivity).
  destruct (Nat.eq_dec (sw 1 0 I) 4) as [E4|N5]; [|rewrite (Z _ _ _ (sw 1 0 I)) by assumption; apply C_ext; cbn; ring].
  assert (I = 7) by (rewrite <- (sw_sw 1 0 I), E4 by lia; reflexivity). subst I. change (kk 1 0 7) with 0%R. rewrite Rmult_0_r, sin_0. apply C_ext; cbn; ring.
Qed.
Lemma exp2 x a b c : is_exp (RtoC x) (act true K2) (st a b c) (st a (b * cos x - c * sin x) (b * sin x + c * cos x)).
Proof.
  eapply is_exp_res; [|apply (exp_single 2 1 x (st a b c)); lia]. intros I. unfold rot.
  destruct (Nat.eqb_spec I 2) as [->|N1]; [change (sw 2 1 2) with 4; change (kk 2 1 2) with (-1)%R; cbn [st Nat.eqb]; replace (x * -1)%R with (- x)%R by ring; rewrite cos_neg, sin_neg; apply C_ext; cbn; ring|].
  destruct (Nat.eqb_spec I 4) as [->|N2]; [change (sw 2 1 4) with 2; change (kk 2 1 4) with 1%R; cbn [st Nat.eqb]; rewrite Rmult_1_r; apply C_ext; cbn; ring|].
  destruct (Nat.eqb_spec I 1) as [->|N4]; [change (kk 2 1 1) with 0%R; rewrite Rmult_0_r, cos_0, sin_0; cbn [st Nat.eqb]; apply C_ext; cbn; ring|].
  assert (Z : forall a b c J, J <> 1 -> J <> 2 -> J <> 4 -> st a b c J = C0) by (intros ? ? ? J J1 J2 J4; unfold st; now rewrite (proj2 (Nat.eqb_neq _ _) J1), (proj2 (Nat.eqb_neq _ _) J2), (proj2 (Nat.eqb_neq _ _) J4)).
  rewrite !(Z _ _ _ I) by assumption. assert (S1 : sw 2 1 I <> 2) by (intros E; apply N2; rewrite <- (sw_sw 2 1 I), E by lia; reflexivity). assert (S2 : sw 2 1 I <> 4) by (intros E; apply N1; rewrite <- (sw_sw 2 1 I), E by lia; reflexivity).
  destruct (Nat.eq_dec (sw 2 1 I) 1) as [E4|N5]; [|rewrite (Z _ _ _ (sw 2 1 I)) by assumption; apply C_ext; cbn; ring].
  assert (I = 7) by (rewrite <- (sw_sw 2 1 I), E4 by lia; reflexivity). subst I. change (kk 2 1 7) with 0%R. rewrite Rmult_0_r, sin_0. apply C_ext; cbn; ring.
Qed.
(** the Hamiltonian X0 X1 *)
Definition XX : qop := [(C1, [gX1 0; gX1 1])].
Lemma energy_st a b c : energy 3 (op_act XX) (st a b c) = (2 * a * b)%R.
Proof.
  unfold energy, inner. change (2 ^ 3) with 8. cbn [seq]. rewrite !Csum_cons, Csum_nil.
  assert (E : forall psi I, op_act XX psi I = psi (flip (flip I 1) 0)). { intros psi I. unfold op_act, XX. rewrite Csum_cons, Csum_nil. cbn [fst snd]. unfold circ_act. cbn [fold_left]. unfold gX1. rewrite !act_1, ev_X. rewrite ev_X. ring. }
  rewrite !E. change (flip (flip 0 1) 0) with 3. change (flip (flip 1 1) 0) with 2. change (flip (flip 2 1) 0) with 1. change (flip (flip 3 1) 0) with 0. change (flip (flip 4 1) 0) with 7. change (flip (flip 5 1) 0) with 6. change (flip (flip 6 1) 0) with 5. change (flip (flip 7 1) 0) with 4. unfold st. cbn [Nat.eqb]. cbn. ring.
Qed.
(** the object, in the state that solving leaves it in *)
Definition example (compact : bool) (m : nat) (ts : list R) : ucc :=
  mkUcc (new_computer 3) [gX1 0] XX "SD" compact true m [(C1, K1); (C1, K2)] [0; 1] (map RtoC ts).
Lemma example_reference compact m ts : circ_act (Uprep (example compact m ts)) (amp (coeff (init (example compact m ts)))) = st 1 0 0.
Proof.
  apply state_eq. intros I. cbn [Uprep init example]. unfold circ_act. cbn [fold_left]. unfold gX1. rewrite act_1, ev_X, new_computer_ket0. unfold ket, st.
  destruct (Nat.eqb_spec (flip I 0) 0) as [E|N].
  - assert (I = 1) by (rewrite <- (flip_flip I 0), E; reflexivity). subst I. reflexivity.
  - destruct (Nat.eqb_spec I 1) as [->|_]; [now destruct N|]. destruct (I =? 2); [reflexivity|]. destruct (I =? 4); reflexivity.
Qed.
