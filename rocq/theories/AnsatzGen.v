(** The generator of one excitation as a real two-level generator; simplify and jw_transform on multiples. *)
From Coq Require Import Reals String List Arith Bool Lia Lra Sorted Permutation FunctionalExtensionality.
From Verif Require Import CBase Result Bits Spec OpSpec GateModel ComputerModel SafeProofs CircuitModel PauliProofs PauliIdx OperatorModel OperatorProofs PauliIndep SQSpec SQModel SQProofs SQPhase JWProofs SQPoolOps CompactModel CompactAct CompactFermi CompactProofs CompactGsd TwoLevel PauliPhase ExpSpec AnsatzSpec AnsatzOrder AnsatzModel.
Import ListNotations.
Local Open Scope nat_scope.

Definition kfun (A : nat -> bool) (c0 : nat) (b : nat -> bool) (I : nat) : R := if A I then ((if bit I c0 then 1 else -1) * (if b I then -1 else 1))%R else 0%R.
Lemma kfun_gen A c0 F b sg psi I : sg I = sgn (b I) -> generator A c0 F sg psi I = gen F (kfun A c0 b) psi I.
Proof. intros E. unfold generator, gen, kfun. rewrite E. destruct (A I); [|apply C_ext; cbn; ring]. destruct (bit I c0), (b I); unfold sgn; apply C_ext; cbn; ring. Qed.
Lemma kfun_odd A c0 b F : (forall I, A (F I) = A I) -> (forall I, bit (F I) c0 = negb (bit I c0)) -> (forall I, b (F I) = b I) -> odd_under F (kfun A c0 b).
Proof. intros H1 H2 H3 I. unfold kfun. rewrite H1, H2, H3. destruct (A I); [|ring]. destruct (bit I c0); cbn [negb]; ring. Qed.
Lemma kfun_flip A c0 b d j I : A (flip I j) = A I -> bit (flip I j) c0 = bit I c0 -> b (flip I j) = xorb d (b I) -> kfun A c0 b (flip I j) = zsign d (kfun A c0 b I).
Proof. intros H1 H2 H3. unfold kfun. rewrite H1, H2, H3. destruct (A I); [|destruct d; cbn [zsign]; ring]. destruct d, (b I); cbn [zsign xorb negb]; ring. Qed.
Record structure (qe : bool) (P H X : list nat) (k : nat -> R) (q0 : nat) : Prop := {
  st_nodup : NoDup X; st_ne : X <> []; st_odd : odd_under (flips X) k;
  st_act : forall psi I, act qe (kappa P H) psi I = gen (flips X) k psi I;
  st_q0 : ~ In q0 X; st_fix : forall j, ~ In j X -> j <> q0 -> exists b, forall I, k (flip I j) = zsign b (k I) }.
Lemma bit_flip_ne I j k : k <> j -> bit (flip I j) k = bit I k.
Proof. intros N. rewrite bit_flip. destruct (Nat.eqb_spec k j); [contradiction|reflexivity]. Qed.
Lemma act_set_flip P H I j : ~ In j (P ++ H) -> act_set P H (flip I j) = act_set P H I.
Proof.
  intros N. assert (G : forall l, incl l (P ++ H) -> full l (flip I j) = full l I /\ none l (flip I j) = none l I).
  { intros l Hl. unfold full, none. split; apply eq_true_iff_eq; rewrite !forallb_forall; split; intros Hx x Ix; specialize (Hx x Ix); rewrite bit_flip_ne in * by (intros ->; apply N, Hl, Ix); exact Hx. }
  unfold act_set. destruct (G P) as (-> & ->); [intros x Ix; apply in_or_app; tauto|]. destruct (G H) as (-> & ->); [intros x Ix; apply in_or_app; tauto|]. reflexivity.
Qed.
Lemma parity_flip l I j : NoDup l -> parity l (flip I j) = xorb (mem j l) (parity l I).
Proof.
  induction 1 as [|x l Nx _ IH]; [reflexivity|]. unfold parity in *. cbn [map fold_right]. rewrite IH, mem_cons, bit_flip. rewrite (Nat.eqb_sym x j). generalize (fold_right xorb false (map (bit I) l)). intros f. destruct (Nat.eqb_spec j x) as [->|Ne]; cbn [orb].
  - rewrite (proj2 (mem_not _ _) Nx). destruct (bit I x), f; reflexivity.
  - destruct (bit I x), (mem j l), f; reflexivity.
Qed.
Lemma indices_NoDup l : NoDup (cnot_indices l).
Proof. unfold cnot_indices. apply NoDup_rev, NoDup_filter, seq_NoDup. Qed.
Lemma indices_off P H : NoDup (P ++ H) -> forall k, In k (P ++ H) -> ~ In k (cnot_indices (P ++ H)).
Proof.
  intros N k Ik K. unfold cnot_indices in K. apply in_rev in K. apply filter_In in K. destruct K as (_ & K). unfold z_survives in K. rewrite (proj2 (mem_In k _) Ik) in K. discriminate.
Qed.
Lemma structure_disjoint qe c0 cr a0 ar : desc (c0 :: cr) -> desc (a0 :: ar) -> length cr = length ar -> NoDup ((c0 :: cr) ++ (a0 :: ar)) ->
  exists X k q0, structure qe (c0 :: cr) (a0 :: ar) X k q0.
Proof.
  intros D1 D2 L N. set (P := c0 :: cr) in *. set (H := a0 :: ar) in *. set (l := cnot_indices (P ++ H)).
  assert (I0 : In c0 (P ++ H)) by now left.
  assert (Fb : forall I, bit (flips (P ++ H) I) c0 = negb (bit I c0)) by (intros I; rewrite bit_flips, (proj2 (mem_In c0 _) I0) by exact N; reflexivity).
  exists (P ++ H), (kfun (act_set P H) c0 (if qe then (fun _ => false) else (fun I => xorb (tri (length P)) (parity l I)))), (S (list_max (P ++ H))).
  constructor.
  - exact N.
  - discriminate.
  - apply kfun_odd; [intros I; now apply act_flips|exact Fb|]. intros I. destruct qe; [reflexivity|]. f_equal. apply parity_ext. intros k Ik. rewrite bit_flips by exact N. destruct (mem k (P ++ H)) eqn:E; [|reflexivity]. apply mem_In in E. exfalso. exact (indices_off P H N k E Ik).
  - intros psi I. unfold act. destruct qe.
    + etransitivity; [symmetry; exact (qexc_generator c0 cr a0 ar psi I N)|]. apply kfun_gen. reflexivity.
    + etransitivity; [symmetry; exact (fermi_generator c0 cr a0 ar psi I D1 D2 L N)|]. apply kfun_gen. now rewrite <- sgn_x.
  - intros K. assert (M : forall x, In x (P ++ H) -> x <= list_max (P ++ H)) by (apply Forall_forall, list_max_le; lia). specialize (M _ K). lia.
  - intros j Nj _. exists (if qe then false else mem j l). intros I. apply kfun_flip; [now apply act_set_flip|apply bit_flip_ne; intros ->; now apply Nj|]. destruct qe; [reflexivity|]. rewrite parity_flip by apply indices_NoDup. destruct (tri (length P)), (mem j l), (parity l I); reflexivity.
Qed.
Lemma structure_shared qe p q s P H : p <> q -> q <> s -> p <> s -> (P = [p; q] \/ P = [q; p]) -> (H = [q; s] \/ H = [s; q]) -> desc P -> desc H ->
  exists X k q0, structure qe P H X k q0.
Proof.
  intros N1 N2 N3 HP HH DP DH. assert (N : NoDup [p; s]) by now apply NoDup2.
  assert (Bp : forall I, bit (flips [p; s] I) p = negb (bit I p)) by (intros I; rewrite bit_flips by exact N; unfold mem; cbn [existsb]; now rewrite Nat.eqb_refl).
  assert (Bs : forall I, bit (flips [p; s] I) s = negb (bit I s)) by (intros I; rewrite bit_flips by exact N; unfold mem; cbn [existsb]; now rewrite Nat.eqb_refl, orb_true_r).
  assert (Bq : forall I, bit (flips [p; s] I) q = bit I q) by (intros I; rewrite bit_flips by exact N; unfold mem; cbn [existsb]; rewrite (proj2 (Nat.eqb_neq q p)), (proj2 (Nat.eqb_neq q s)) by congruence; reflexivity).
  exists [p; s], (kfun (gset p q s) p (if qe then (fun _ => false) else (fun I => xorb true (gsign p q s I)))), q. constructor.
  - exact N.
  - discriminate.
  - apply kfun_odd; [|exact Bp|].
    + intros I. unfold gset. rewrite Bp, Bs, Bq. destruct (bit I q), (bit I p), (bit I s); reflexivity.
    + intros I. destruct qe; [reflexivity|]. now rewrite gsign_flips.
  - intros psi I. unfold act. destruct qe.
    + rewrite <- (gsd_qexc_generator p q s P H psi I) by assumption. apply kfun_gen. reflexivity.
    + rewrite <- (gsd_fermi_generator p q s P H psi I) by assumption. apply kfun_gen. now rewrite <- sgn_x.
  - intros [K|[K|[]]]; congruence.
  - intros j Nj Nq. assert (Np : p <> j) by (intros ->; apply Nj; now left). assert (Ns : s <> j) by (intros ->; apply Nj; right; now left).
    exists (if qe then false else xorb (j <? p) (j <? s)). intros I. apply kfun_flip.
    + unfold gset. now rewrite !bit_flip_ne by congruence.
    + now apply bit_flip_ne.
    + destruct qe; [reflexivity|]. unfold gsign. cbv zeta.
      replace (cleared [p; s; q] (flip I j)) with (flip (cleared [p; s; q] I) j).
      2: { apply bits_ext. intros k. rewrite bit_flip, !bit_cleared, bit_flip. destruct (Nat.eqb_spec k j) as [->|]; [|reflexivity]. unfold mem. cbn [existsb]. rewrite !(proj2 (Nat.eqb_neq j _)) by congruence. reflexivity. }
      rewrite !flip_upd, !odd_below_upd. set (K := cleared [p; s; q] I). destruct (j <? p), (j <? s), (odd_below K p), (odd_below K s), (bit K j); reflexivity.
Qed.
Lemma excitable_structure qe P H : Excitable P H -> exists X k q0, structure qe P H X k q0.
Proof.
  intros (Ne & L & DP & DH & [D|(q & p & s & N1 & N2 & N3 & HP & HH)]).
  - destruct P as [|c0 cr]; [contradiction|]. destruct H as [|a0 ar]; [discriminate|]. injection L as L. apply structure_disjoint; try assumption. apply LoopProofs.NoDup_app_disj; [apply desc_NoDup, DP|apply desc_NoDup, DH|exact D].
  - now apply (structure_shared qe p q s).
Qed.
(** multiples of T - T^dagger *)
Lemma act_pair qe a P H psi I : act qe (Antihermitian a P H) psi I = (RtoC a * act qe (kappa P H) psi I)%C.
Proof.
  unfold act. destruct qe; unfold qexc_act, fermi_act, Antihermitian, kappa; rewrite !Csum_cons, !Csum_nil; unfold fcoef, fcre, fann; cbn [fst snd]; replace (RtoC (- a)) with (- RtoC a)%C by (apply C_ext; cbn; ring); ring.
Qed.
