(** C61: the compact circuits of fermionic and qubit excitations. *)
From Coq Require Import Reals String List Arith Bool Lia Lra Sorted.
From Verif Require Import CBase Result Bits Spec GateModel ComputerModel LibProofs CircuitModel PyModel SQSpec ExpSpec CompactModel CompactRot CompactAct CompactFermi CompactProofs CompactGsd.
Import ListNotations.
Local Open Scope nat_scope.

(** indices written from the highest to the lowest *)
Definition Descending (l : list nat) : Prop := StronglySorted (fun a b => b < a) l.
(** T - T^dagger for T = a^_{c1} a^_{c2} ... a_{a1} a_{a2} ... *)
Definition Excitation (cre ann : list nat) : list fterm := [(C1, cre, ann); ((- C1)%C, ann, cre)].
(** the circuit returned by the call is exp(theta K) on every state *)
Definition Exponentiates (call : res (list gate)) (theta : R) (K : state -> state) : Prop :=
  exists circ, call = Ok circ /\ forall psi, is_exp (RtoC theta) K psi (circ_act circ psi).
(** exactly one index q is shared *)
Definition OneShared (q p s : nat) (cre ann : list nat) : Prop :=
  p <> q /\ q <> s /\ p <> s /\ (cre = [p; q] \/ cre = [q; p]) /\ (ann = [q; s] \/ ann = [s; q]).

Theorem C61_fermionic_partial : forall theta cre ann, cre <> [] -> length cre = length ann -> Descending cre -> Descending ann -> (forall k, In k cre -> ~ In k ann) ->
  Exponentiates (compact_excitation_circuit (RtoC theta) cre ann false) theta (fermi_act (Excitation cre ann)).
Proof. intros. now apply compact_fermi. Qed.
Theorem C61_qubit : forall theta cre ann, cre <> [] -> length cre = length ann -> NoDup cre -> NoDup ann -> (forall k, In k cre -> ~ In k ann) ->
  Exponentiates (compact_excitation_circuit (RtoC theta) cre ann true) theta (qexc_act (Excitation cre ann)).
Proof. intros. now apply compact_qubit. Qed.
(** one shared index: a first annihilated index that is created first, or not in the middle of the two others *)
Theorem C61_fermionic_shared_partial : forall theta q p s cre ann, OneShared q p s cre ann -> Descending cre -> Descending ann -> ~ (cre = [q; p] /\ ann = [s; q]) ->
  Exponentiates (compact_excitation_circuit (RtoC theta) cre ann false) theta (fermi_act (Excitation cre ann)).
Proof.
  intros theta q p s cre ann (N1 & N2 & N3 & Hc & Ha) Dc Da Nd. apply (compact_fermi_gsd theta p q s); try assumption.
  destruct Hc as [-> | ->], Ha as [-> | ->]; cbn [hd nth]; congruence || (intros _; apply Nd; split; reflexivity).
Qed.
Theorem C61_qubit_shared : forall theta q p s cre ann, OneShared q p s cre ann ->
  Exponentiates (compact_excitation_circuit (RtoC theta) cre ann true) theta (qexc_act (Excitation cre ann)).
Proof. intros theta q p s cre ann (N1 & N2 & N3 & Hc & Ha). now apply (compact_qubit_gsd theta p q s). Qed.
(** q^ p^ s q with p < q < s: the sign of the orbitals between p and s is lost *)
Theorem C61_shared_middle_refuted : forall theta p q s, p < q -> q < s -> p + 2 < s -> sin theta <> 0%R ->
  Descending [q; p] /\ Descending [s; q] /\ OneShared q p s [q; p] [s; q] /\
  (exists circ, compact_excitation_circuit (RtoC theta) [q; p] [s; q] false = Ok circ) /\
  ~ Exponentiates (compact_excitation_circuit (RtoC theta) [q; p] [s; q] false) theta (fermi_act (Excitation [q; p] [s; q])).
Proof.
  intros theta p q s L1 L2 L3 Hs. destruct (compact_gsd_wrong theta p q s L1 L2 L3 Hs) as (circ & E & H). split; [now apply desc2|]. split; [now apply desc2|]. split; [unfold OneShared; repeat split; try lia; tauto|]. split; [now exists circ|].
  intros (circ' & E' & H'). assert (circ' = circ) by congruence. subst circ'. apply H. exact H'.
Qed.
(** two shared indices, or lists of different length *)
Theorem C61_not_conserving : forall theta cre ann qe, length cre <> length ann -> compact_excitation_circuit theta cre ann qe = Throw (PyError "ValueError").
Proof. intros theta cre ann qe N. unfold compact_excitation_circuit. rewrite (proj2 (Nat.eqb_neq _ _) N). reflexivity. Qed.
Theorem C61_two_shared : forall theta cre ann qe x y, In x cre -> In x ann -> In y cre -> In y ann -> x <> y -> compact_excitation_circuit theta cre ann qe = Throw (PyError "ValueError").
Proof.
  intros theta cre ann qe x y X1 X2 Y1 Y2 N. unfold compact_excitation_circuit. destruct (negb _); [reflexivity|].
  replace (Nat.ltb 1 _) with true; [reflexivity|]. symmetry. apply Nat.ltb_lt. set (g := nodup _ _).
  assert (Ix : In x g) by (apply nodup_In, filter_In; split; [exact X1 | now apply mem_In]). assert (Iy : In y g) by (apply nodup_In, filter_In; split; [exact Y1 | now apply mem_In]).
  destruct g as [|u [|v w]]; [destruct Ix | destruct Ix as [<-|[]], Iy as [<-|[]]; congruence | cbn; lia].
Qed.
(** the amplitude must be real *)
Lemma sign_nonzero i n gs qe : gs <> 0%R -> ry_sign i n gs qe <> 0%R.
Proof.
  intros Hg. unfold ry_sign. rewrite even_sign. assert (Hp : ry_prefactor n <> 0%R) by (unfold ry_prefactor; destruct (_ && _); [lra|]; destruct (_ && _); [lra|]; destruct (Nat.eqb n 1); lra).
  destruct qe; destruct (Nat.even i); try lra; repeat apply Rmult_integral_contrapositive_currified; try lra; assumption.
Qed.
Lemma complex_Ry th t cc ca gc gs qe : Im th <> 0%R -> gs <> 0%R -> multi_qubit_controlled_Ry th t cc ca gc gs qe = Throw InvalidArg.
Proof.
  intros Hi Hg. unfold multi_qubit_controlled_Ry. set (n := length _). destruct (2 ^ n) as [|m] eqn:E; [exfalso; apply (Nat.pow_nonzero 2 n); lia|]. cbn [seq foreach]. unfold add_gate at 1, py_gate3c at 1.
  destruct (Req_EM_T _ 0) as [K|K]; [|reflexivity]. exfalso. cbn [Im Re Cmul RtoC] in K. pose proof (sign_nonzero 0 (length ca) gs qe Hg) as Hs. set (u := (/ INR (2 ^ (n - 1)))%R) in *.
  assert (Hu : u <> 0%R) by (apply Rinv_neq_0_compat, not_0_INR, Nat.pow_nonzero; lia).
  assert (K' : (ry_sign 0 (length ca) gs qe * (Im th * u) = 0)%R) by (rewrite <- K; ring). apply Rmult_integral in K'. destruct K' as [K'|K']; [contradiction|]. apply Rmult_integral in K'. tauto.
Qed.
Theorem C61_complex_amplitude : forall theta cre ann qe, cre <> [] -> length cre = length ann -> NoDup cre -> NoDup ann -> (forall k, In k cre -> ~ In k ann) -> Im theta <> 0%R ->
  compact_excitation_circuit theta cre ann qe = Throw InvalidArg.
Proof.
  intros theta cre ann qe Ne L D1 D2 D Hi. destruct cre as [|c0 cr]; [contradiction|]. destruct ann as [|a0 ar]; [discriminate|]. injection L as L.
  assert (N : NoDup ((c0 :: cr) ++ (a0 :: ar))) by (apply LoopProofs.NoDup_app_disj; assumption).
  unfold compact_excitation_circuit. cbn [length]. rewrite L, Nat.eqb_refl. cbn [negb].
  destruct (filter_all (c0 :: cr) (a0 :: ar) D) as (E1 & E2). destruct (filter_all (a0 :: ar) (c0 :: cr)) as (E3 & _); [intros k K1 K2; now apply (D k)|]. rewrite E1, E2, E3. cbn [nodup length Nat.ltb Nat.leb bind].
  assert (Q : qubit_excitation theta (c0 :: cr) (a0 :: ar) [] 1 qe = Throw InvalidArg).
  { unfold qubit_excitation. cbn [tl]. pose proof (fan_model c0 cr a0 ar N) as FM. cbn [py_head bind] in *.
    destruct (foreach cr _ []) as [x|]; cbn [bind] in *; [|discriminate]. destruct (foreach ar _ x) as [y|]; cbn [bind] in *; [|discriminate]. rewrite FM. cbn [bind]. rewrite complex_Ry by (try exact Hi; lra). reflexivity. }
  rewrite Q. destruct qe; [reflexivity|]. rewrite sign_model. reflexivity.
Qed.

(** ---- instances ---- *)
Example C61_triple : Exponentiates (compact_excitation_circuit (RtoC (1/3)) [9; 7; 6] [4; 1; 0] false) (1/3) (fermi_act (Excitation [9; 7; 6] [4; 1; 0])).
Proof. apply C61_fermionic_partial; [discriminate|reflexivity| | |]; try (repeat constructor; lia). intros k K1 K2. cbn in K1, K2. lia. Qed.
Example C61_shared_case : OneShared 4 7 1 [7; 4] [4; 1] /\ Exponentiates (compact_excitation_circuit (RtoC 1) [7; 4] [4; 1] false) 1 (fermi_act (Excitation [7; 4] [4; 1])).
Proof. assert (O : OneShared 4 7 1 [7; 4] [4; 1]) by (unfold OneShared; repeat split; try lia; tauto). split; [exact O|]. apply (C61_fermionic_shared_partial 1 4 7 1 _ _ O); [repeat constructor; lia|repeat constructor; lia|intros (H & _); discriminate]. Qed.
Example C61_wrong_case : ~ Exponentiates (compact_excitation_circuit (RtoC 1) [1; 0] [3; 1] false) 1 (fermi_act (Excitation [1; 0] [3; 1])).
Proof. apply C61_shared_middle_refuted; try lia. pose proof (sin_gt_0 1). pose proof PI2_1. assert (0 < sin 1)%R by (apply sin_gt_0; lra). lra. Qed.

Print Assumptions C61_fermionic_partial.
Print Assumptions C61_qubit.
Print Assumptions C61_fermionic_shared_partial.
Print Assumptions C61_qubit_shared.
Print Assumptions C61_shared_middle_refuted.
Print Assumptions C61_not_conserving.
Print Assumptions C61_two_shared.
Print Assumptions C61_complex_amplitude.
