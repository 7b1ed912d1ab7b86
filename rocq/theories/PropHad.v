(** C71: the Hadamard-test mode of SRQK (fast=False) measures the same matrices. *)
From Coq Require Import Reals String List Arith Bool Lia Lra.
From Verif Require Import CBase Result Bits Spec OpSpec GateModel MeasSpec ComputerModel SafeProofs LibProofs CleanProofs SimProofs CircuitModel PauliProofs OperatorModel MeasureModel MeasureProofs PyModel PyApply ExpSpec ExpProofs ExpCircuit FermiProofs EigModel EigProofs GradModel GradSpec GradProofs QkModel QkProofs QkEig PropOperator PropMeasure PropEig PropGrad HadProofs PropQk.
From Verif Require TrotterProofs PropPy PropAnsatz.
Import ListNotations.
Local Open Scope nat_scope.

Lemma scaled_inner n a b P k k' : inner n (sscale k a) (circ_act P (sscale k' b)) = (inner n a (circ_act P b) * k' * Cconj k)%C.
Proof. rewrite inner_scale_l, (inner_ext n a a _ _ (seq_refl a) (circ_act_scale P k' b)), inner_scale_r. ring. Qed.
Theorem C71_matrix_element : forall o m n Pm Pn, Setup o -> Krylov o m Pm -> Krylov o n Pn ->
  matrix_element o m n true = Ok (inner (qk_nqb o) Pm (op_act (qk_ham o) Pn)) /\ matrix_element o m n false = Ok (inner (qk_nqb o) Pm Pn).
Proof.
  intros o m n Pm Pn HS Km Kn. pose proof (setup_ready o HS) as HR.
  destruct (ctl_evolution o n HR) as (gk & pk & lk & Ek & Ak & Ck & Sk & Rk). destruct (ctl_evolution o m HR) as (gb & pb & lb & Eb & Ab & Cb & Sb & Rb).
  set (ref := circ_act (qk_Uprep o) (ket 0)) in *. set (nq := qk_nqb o) in *.
  assert (Un : Pn == sscale pk (TrotterProofs.eulers lk ref)) by exact (PropAnsatz.exp_product_unique _ _ _ _ Kn Rk).
  assert (Um : Pm == sscale pb (TrotterProofs.eulers lb ref)) by exact (PropAnsatz.exp_product_unique _ _ _ _ Km Rb).
  assert (HT : forall V, StringOn nq V -> hadamard_test o gk (ctl_string V nq) gb = Ok (inner nq (TrotterProofs.eulers lb ref) (circ_act V (TrotterProofs.eulers lk ref)))) by (intros V HV; exact (hadamard_ok o HR gk gb lk lb V HV Ak Ab Sk Sb Ck Cb)).
  assert (HV : forall V, StringOn nq V -> (inner nq (TrotterProofs.eulers lb ref) (circ_act V (TrotterProofs.eulers lk ref)) * pk * Cconj pb)%C = inner nq Pm (circ_act V Pn)).
  { intros V _. rewrite <- scaled_inner. apply inner_ext; [apply seq_sym, Um|apply circ_act_ext, seq_sym, Un]. }
  unfold matrix_element. cbv zeta. change (map (fun t => (mkC 0 (- (INR n * qk_dt o)) * fst t, snd t)%C) (qk_ham o)) with (temp_op o n). change (map (fun t => (mkC 0 (- (INR m * qk_dt o)) * fst t, snd t)%C) (qk_ham o)) with (temp_op o m).
  fold nq. rewrite Ek. cbn [bind]. rewrite Eb. cbn [bind fst snd]. split.
  - rewrite inner_op_r. destruct HS as (_ & HH & _). fold nq in HH. unfold Hamiltonian in HH.
    assert (G : forall ham, Forall (fun t => StringOn nq (snd t) /\ Im (fst t) = 0%R) ham -> forall z, foreach ham (fun t value => do cV <- controlled_string nq (snd t); do v <- hadamard_test o gk cV gb; Ok (value + fst t * (v * pk * Cconj pb))%C) z =
      Ok (z + Csum (fun t => fst t * inner nq Pm (circ_act (snd t) Pn)) ham)%C).
    { induction 1 as [|t ham (Ht & _) _ IH]; intros z; cbn [foreach]; [rewrite Csum_nil; f_equal; ring|]. destruct (controlled_string_ok nq (snd t) Ht) as (EV & _ & _). rewrite EV. cbn [bind]. rewrite (HT _ Ht). cbn [bind]. rewrite IH, (HV _ Ht), Csum_cons. f_equal. ring. }
    rewrite (G _ HH C0). f_equal. ring.
  - assert (H0 : StringOn nq []) by (repeat split; constructor). change (@nil gate) with (ctl_string [] nq). rewrite (HT [] H0). cbn [bind]. f_equal. exact (HV [] H0).
Qed.
Print Assumptions C71_matrix_element.

(** all the elements *)
Definition filled (p j a b : nat) : bool := Nat.ltb (Nat.min a b) p || (Nat.eqb (Nat.min a b) p && Nat.ltb (Nat.max a b) (p + j)).
Lemma mset_filled N p j (v f : nat -> nat -> C) : (forall a b, Cconj (v a b) = v b a) -> (forall a b, a < N -> b < N -> filled p j a b = true -> f a b = v a b) ->
  forall a b, a < N -> b < N -> filled p (S j) a b = true -> mset (mset f p (p + j) (v p (p + j))) (p + j) p (Cconj (mset f p (p + j) (v p (p + j)) p (p + j))) a b = v a b.
Proof.
  intros HC HF a b Ha Hb H. unfold mset. rewrite !Nat.eqb_refl. cbn [andb]. rewrite HC.
  destruct (Nat.eqb_spec a (p + j)) as [E1|E1], (Nat.eqb_spec b p) as [E2|E2], (Nat.eqb_spec a p) as [E3|E3], (Nat.eqb_spec b (p + j)) as [E4|E4]; cbn [andb]; try congruence; apply HF; try assumption; unfold filled in *;
  apply orb_true_iff in H; apply orb_true_iff; (destruct H as [H|H]; [now left|]); apply andb_true_iff in H; destruct H as [H1 H2]; apply Nat.eqb_eq in H1; apply Nat.ltb_lt in H2; right; apply andb_true_iff; (split; [now apply Nat.eqb_eq|apply Nat.ltb_lt; lia]).
Qed.
Theorem C71_realistic_matrices : forall o, Setup o -> exists h s, build_qk_mats_realistic o = Ok (h, s) /\
  forall Psi, (forall m, m <= qk_s o -> Krylov o m (Psi m)) -> forall a b, a <= qk_s o -> b <= qk_s o ->
  s a b = inner (qk_nqb o) (Psi a) (Psi b) /\ h a b = inner (qk_nqb o) (Psi a) (op_act (qk_ham o) (Psi b)).
Proof.
  intros o HS. destruct (preps o HS) as (QC & HQ). set (n := qk_nqb o) in *. set (P := fun m => psi_of (QC m)).
  assert (HK : forall m, Krylov o m (P m)) by (intros m; apply HQ).
  set (sv := fun a b => inner n (P a) (P b)). set (hv := fun a b => inner n (P a) (op_act (qk_ham o) (P b))).
  assert (CS : forall a b, Cconj (sv a b) = sv b a) by (intros; unfold sv; symmetry; apply inner_conj).
  assert (CH : forall a b, Cconj (hv a b) = hv b a) by (intros; unfold hv; rewrite <- inner_conj; symmetry; apply C63_hamiltonian_self_adjoint; apply HS).
  set (N := qk_s o + 1). unfold build_qk_mats_realistic. fold N.
  match goal with |- context [foreach (seq 0 N) ?bd _] => set (body := bd) end.
  set (Inv := fun p j (hs : mat * mat) => forall a b, a < N -> b < N -> filled p j a b = true -> fst hs a b = hv a b /\ snd hs a b = sv a b).
  assert (HB : forall p hs, Inv p 0 hs -> p < N -> exists hs', body p hs = Ok hs' /\ Inv (S p) 0 hs').
  { intros p hs HI Hp. unfold body. assert (HL : forall j, j <= N - p -> exists hs', foreach (seq p j) (fun q hs0 => do hv0 <- matrix_element o p q true; (let h := mset (fst hs0) p q hv0 in let h0 := mset h q p (Cconj (h p q)) in do sv0 <- matrix_element o p q false; (let s := mset (snd hs0) p q sv0 in let s0 := mset s q p (Cconj (s p q)) in Ok (h0, s0)))) hs = Ok hs' /\ Inv p j hs').
    { induction j as [|j IH]; intros Hj; [exists hs; split; [reflexivity|exact HI]|]. destruct IH as (h1 & E1 & I1); [lia|]. rewrite seq_S, foreach_app', E1. cbn [bind foreach]. destruct (C71_matrix_element o p (p + j) (P p) (P (p + j)) HS (HK p) (HK (p + j))) as (M1 & M2). fold n in M1, M2. rewrite M1. cbn [bind]. rewrite M2. cbn [bind]. cbv zeta.
      eexists. split; [reflexivity|]. intros a b Ha Hb HF. cbn [fst snd]. split.
      - exact (mset_filled N p j hv (fst h1) CH (fun a b H1 H2 H => proj1 (I1 a b H1 H2 H)) a b Ha Hb HF).
      - exact (mset_filled N p j sv (snd h1) CS (fun a b H1 H2 H => proj2 (I1 a b H1 H2 H)) a b Ha Hb HF). }
    destruct (HL (N - p) (Nat.le_refl _)) as (hs' & E & I1). exists hs'. split; [exact E|]. intros a b Ha Hb HF. apply I1; [exact Ha|exact Hb|]. unfold filled in *.
    apply orb_true_iff in HF. destruct HF as [HF|HF]; [|apply andb_true_iff in HF; destruct HF as [H1 H2]; apply Nat.eqb_eq in H1; apply Nat.ltb_lt in H2; lia]. apply Nat.ltb_lt in HF. apply orb_true_iff.
    destruct (Nat.lt_ge_cases (Nat.min a b) p) as [L|L]; [left; now apply Nat.ltb_lt|right]. apply andb_true_iff. split; [apply Nat.eqb_eq; lia|apply Nat.ltb_lt; lia]. }
  assert (HA : forall k, k <= N -> exists hs, foreach (seq 0 k) body (mzero, mzero) = Ok hs /\ Inv k 0 hs).
  { induction k as [|k IH]; intros Hk.
    - eexists. split; [reflexivity|]. intros a b _ _ HF. unfold filled in HF. apply orb_true_iff in HF. destruct HF as [HF|HF]; [apply Nat.ltb_lt in HF; lia|]. apply andb_true_iff in HF. destruct HF as [_ HF]. apply Nat.ltb_lt in HF. lia.
    - destruct IH as (hs & E & I1); [lia|]. destruct (HB k hs I1 ltac:(lia)) as (hs' & E' & I2). exists hs'. split; [|exact I2]. rewrite seq_S, foreach_app', E. cbn [bind Nat.add foreach]. rewrite E'. reflexivity. }
  destruct (HA N (Nat.le_refl N)) as ((h & s) & E & HI). exists h, s. split; [exact E|]. intros Psi HP a b Ha Hb.
  destruct (HI a b) as (H1 & H2); [unfold N; lia|unfold N; lia|unfold filled; apply orb_true_iff; left; apply Nat.ltb_lt; unfold N; lia|]. cbn [fst snd] in *.
  assert (EU : forall m, m <= qk_s o -> P m == Psi m) by (intros m Hm; exact (PropAnsatz.exp_product_unique _ _ _ _ (HK m) (HP m Hm))).
  rewrite H1, H2. split; [apply inner_ext; apply EU; assumption|apply inner_ext; [apply EU; assumption|apply op_act_ext', EU; assumption]].
Qed.
Print Assumptions C71_realistic_matrices.
(** both modes of SRQK build the same matrices *)
Theorem C71_modes_agree : forall eig o r, Setup o -> srqk_run eig o = Ok r -> exists h s, build_qk_mats_realistic o = Ok (h, s) /\
  forall a b, a <= qk_s o -> b <= qk_s o -> s a b = r_S r a b /\ h a b = r_H r a b.
Proof.
  intros eig o r HS E. destruct (C71_realistic_matrices o HS) as (h & s & EB & HM). exists h, s. split; [exact EB|]. intros a b Ha Hb. destruct (preps o HS) as (QC & HQ). set (P := fun m => psi_of (QC m)).
  assert (HK : forall m, m <= qk_s o -> Krylov o m (P m)) by (intros m _; apply HQ).
  destruct (HM P HK a b Ha Hb) as (H1 & H2). destruct (C70_matrices eig o r HS E P HK a b Ha Hb) as (H3 & H4 & _). rewrite H1, H2, H3, H4. auto.
Qed.
Print Assumptions C71_modes_agree.
(** example: the hypotheses are those of C70 *)
Example C71_nonvacuous : exists eig o r, Setup o /\ qk_s o = 1 /\ srqk_run eig o = Ok r.
Proof. destruct C70_nonvacuous as (eig & o & r & k & Psi & H1 & H2 & H3 & _). exists eig, o, r. auto. Qed.
