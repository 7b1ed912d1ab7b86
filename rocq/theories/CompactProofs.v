(** compact_excitation_circuit exponentiates the excitation. *)
From Coq Require Import Reals String List Arith Bool Lia Lra Sorted FunctionalExtensionality.
From Verif Require Import CBase Result Bits Spec GateModel ComputerModel LibProofs CircuitModel PyModel SQSpec ExpSpec ExpProofs CompactModel CompactRot CompactAct CompactFermi.
Import ListNotations.
Local Open Scope nat_scope.

(** ---- the sign of the rank ---- *)
Lemma tri_4 n : tri (4 + n) = tri n.
Proof.
  assert (O : forall k, Nat.odd (S k) = negb (Nat.odd k)) by (intros k; rewrite Nat.odd_succ; symmetry; apply Nat.negb_odd).
  change (tri (4 + n)) with (xorb (Nat.odd (S (S (S n)))) (xorb (Nat.odd (S (S n))) (xorb (Nat.odd (S n)) (xorb (Nat.odd n) (tri n))))). rewrite !O. destruct (Nat.odd n), (tri n); reflexivity.
Qed.
Lemma tri_mod n : tri n = match Nat.modulo n 4 with 0 | 1 => false | _ => true end.
Proof.
  rewrite (Nat.div_mod n 4) at 1 by lia. pose proof (Nat.mod_upper_bound n 4). set (r := n mod 4) in *. generalize (n / 4). intros k. induction k as [|k IH].
  - rewrite Nat.mul_0_r. cbn [Nat.add]. destruct r as [|[|[|[|]]]]; try reflexivity; lia.
  - replace (4 * S k + r) with (4 + (4 * k + r)) by lia. rewrite tri_4. exact IH.
Qed.
Lemma prefactor_tri n : 1 <= n -> ry_prefactor n = (if tri n then -1 else 1)%R.
Proof.
  intros L. rewrite tri_mod. unfold ry_prefactor. pose proof (Nat.mod_upper_bound n 4). pose proof (Nat.div_mod n 4). pose proof (Nat.div_mod n 2). pose proof (Nat.mod_upper_bound n 2). pose proof (Nat.div_mod (n - 1) 4). pose proof (Nat.mod_upper_bound (n - 1) 4). pose proof (Nat.div_mod (n - 1) 2). pose proof (Nat.mod_upper_bound (n - 1) 2).
  destruct (Nat.eqb_spec n 1) as [->|N1]; [reflexivity|].
  destruct (Nat.eqb_spec (n mod 2) 0), (Nat.eqb_spec (n mod 4) 0), (Nat.eqb_spec ((n - 1) mod 2) 0), (Nat.eqb_spec ((n - 1) mod 4) 0); cbn [andb]; destruct (n mod 4) as [|[|[|[|]]]] eqn:E; try reflexivity; exfalso; lia.
Qed.

(** ---- the staircase with an empty index list ---- *)
Definition stair (c0 : nat) (l : list nat) : list gate := match l with [] => [] | _ => stair_circ c0 l end.
Lemma indices_NoDup idxs : NoDup (cnot_indices idxs).
Proof. unfold cnot_indices. apply NoDup_rev, NoDup_filter, seq_NoDup. Qed.
Lemma indices_off idxs k : In k idxs -> ~ In k (cnot_indices idxs).
Proof. intros I K. unfold cnot_indices in K. rewrite <- in_rev in K. apply filter_In in K. destruct K as (_ & K). unfold z_survives in K. rewrite (proj2 (mem_In k idxs) I) in K. discriminate. Qed.
Lemma sign_model c0 cr ann : fermion_sign_circuit (c0 :: cr) ann = Ok (stair c0 (cnot_indices ((c0 :: cr) ++ ann))).
Proof.
  unfold fermion_sign_circuit. cbn [app]. set (idxs := c0 :: cr ++ ann). pose proof (indices_NoDup idxs) as N. pose proof (indices_off idxs c0 (or_introl eq_refl)) as N0.
  destruct (cnot_indices idxs) as [|x r] eqn:E; [reflexivity|]. rewrite stair_model by exact N. cbn [bind py_head app]. unfold add_gate. rewrite py_cZ. 2: { intros ->. apply N0. apply last_In. discriminate. }
  reflexivity.
Qed.
Lemma stair_all c0 l X U A b : NoDup l -> NoDup X -> (forall k, In k X -> ~ In k l) -> In c0 X -> (forall I, A (sigma (stair_pairs l) I) = A I) ->
  (forall psi I, circ_act U psi I = rotate A b c0 (flips X) (fun _ => C1) psi I) ->
  forall psi I, circ_act (stair c0 l ++ U ++ circuit_adjoint (stair c0 l)) psi I = rotate A b c0 (flips X) (fun I => sgn (parity l I)) psi I.
Proof.
  intros Nl NX D Ic HA HU psi I. destruct l as [|x r].
  - cbn [stair circuit_adjoint rev map app]. rewrite app_nil_r, HU. unfold rotate, parity, sgn. cbn [map fold_right]. reflexivity.
  - cbn [stair]. rewrite (stair_conj c0 (x :: r) X U A b (fun _ => C1)); try assumption; [|discriminate|reflexivity].
    unfold rotate, sgn, GateEval.sgn. destruct (A I); [|reflexivity]. destruct (parity (x :: r) I); ring.
Qed.
(** the sign of the angle moves into the amplitude *)
Lemma rotate_sign (f : bool) A b c0 F sg psi I : rotate A ((if f then -1 else 1) * b) c0 F sg psi I = rotate A b c0 F (fun I => (sgn f * sg I)%C) psi I.
Proof.
  unfold rotate. destruct f; cbn [sgn].
  - replace (-1 * b)%R with (- b)%R by ring. rewrite cos_neg, sin_neg. destruct (A I); [|reflexivity]. destruct (bit I c0); apply C_ext; cbn; ring.
  - rewrite Rmult_1_l. destruct (A I); [|reflexivity]. ring.
Qed.

(** ---- excitations without common index ---- *)
Definition full (l : list nat) (I : nat) : bool := forallb (fun k => bit I k) l.
Definition none (l : list nat) (I : nat) : bool := forallb (fun k => negb (bit I k)) l.
Lemma full_In l I : full l I = true <-> forall k, In k l -> bit I k = true.
Proof. apply forallb_forall. Qed.
Lemma none_In l I : none l I = true <-> forall k, In k l -> bit I k = false.
Proof. unfold none. rewrite forallb_forall. split; intros H k Ik; specialize (H k Ik); destruct (bit I k); cbn in *; congruence. Qed.
Lemma excites_plain c0 a0 cr ar I : NoDup ((c0 :: cr) ++ (a0 :: ar)) ->
  excites c0 a0 cr ar [] I = (full (c0 :: cr) I && none (a0 :: ar) I) || (none (c0 :: cr) I && full (a0 :: ar) I).
Proof.
  intros N. destruct (NoDup_parts _ _ _ _ N) as (N1 & N2 & N3 & N4 & N5 & N6 & N7 & N8). apply mem_not in N3 as M3. apply mem_not in N4 as M4. apply mem_not in N5 as M5. apply mem_not in N6 as M6.
  unfold excites. cbn [forallb]. rewrite app_nil_r. unfold fires at 1. cbn [fst snd]. rewrite bit_sigma, M5, M6, Nat.eqb_refl, xorb_false_l by exact N.
  assert (Er : forallb (fires (bit (sigma (fan c0 a0 cr ar) I))) (map (kind false) (ar ++ rev cr)) = forallb (fun k => negb (xorb (bit I k) (bit I a0))) ar && forallb (fun k => negb (xorb (bit I k) (bit I c0))) cr).
  { rewrite map_app, forallb_app. f_equal.
    - rewrite forallb_forall || idtac. clear - N N2 N8. apply eq_true_iff_eq. rewrite !forallb_forall. split; intros H k Ik.
      + specialize (H (kind false k) (in_map _ _ _ Ik)). unfold fires, kind in H. cbn [fst snd negb] in H. rewrite bit_sigma in H by exact N. rewrite (proj2 (mem_not k cr)), (proj2 (mem_In k ar) Ik) in H by (intros K; now apply (N8 k)). destruct (bit I k), (bit I a0); cbn in *; congruence.
      + apply in_map_iff in Ik. destruct Ik as (j & <- & Ij). specialize (H j Ij). unfold fires, kind. cbn [fst snd negb]. rewrite bit_sigma by exact N. rewrite (proj2 (mem_not j cr)), (proj2 (mem_In j ar) Ij) by (intros K; now apply (N8 j)). destruct (bit I j), (bit I a0); cbn in *; congruence.
    - apply eq_true_iff_eq. rewrite !forallb_forall. split; intros H k Ik.
      + specialize (H (kind false k) (in_map _ _ _ (proj1 (in_rev _ _) Ik))). unfold fires, kind in H. cbn [fst snd negb] in H. rewrite bit_sigma in H by exact N. rewrite (proj2 (mem_In k cr) Ik) in H. destruct (bit I k), (bit I c0); cbn in *; congruence.
      + apply in_map_iff in Ik. destruct Ik as (j & <- & Ij). apply in_rev in Ij. specialize (H j Ij). unfold fires, kind. cbn [fst snd negb]. rewrite bit_sigma by exact N. rewrite (proj2 (mem_In j cr) Ij). destruct (bit I j), (bit I c0); cbn in *; congruence. }
  rewrite Er. unfold full, none. cbn [forallb].
  assert (Ex : forall v l, forallb (fun k => negb (xorb (bit I k) v)) l = if v then forallb (fun k => bit I k) l else forallb (fun k => negb (bit I k)) l).
  { intros v l. destruct v; apply eq_true_iff_eq; rewrite !forallb_forall; split; intros H k Ik; specialize (H k Ik); destruct (bit I k); cbn in *; congruence. }
  rewrite !Ex. destruct (bit I a0), (bit I c0); cbn [xorb andb negb orb]; rewrite ?andb_false_r, ?orb_false_r, ?orb_true_r; cbn [andb orb]; try reflexivity; try apply andb_comm.
Qed.
Lemma flips_comm a b I : NoDup (a ++ b) -> flips (b ++ a) I = flips (a ++ b) I.
Proof.
  intros N. assert (N' : NoDup (b ++ a)) by (eapply Permutation.Permutation_NoDup; [apply Permutation.Permutation_app_comm|exact N]). apply bits_ext. intros k. rewrite !bit_flips, !mem_app by assumption. now rewrite orb_comm.
Qed.
Lemma flips_twice l I : NoDup l -> flips l (flips l I) = I.
Proof. intros N. apply bits_ext. intros k. rewrite !bit_flips by exact N. destruct (mem k l); [apply negb_involutive|reflexivity]. Qed.
Lemma full_flips l X I : NoDup X -> incl l X -> full l (flips X I) = none l I.
Proof. intros N S. unfold full, none. apply eq_true_iff_eq. rewrite !forallb_forall. split; intros H k Ik; specialize (H k Ik); rewrite bit_flips, (proj2 (mem_In k X) (S k Ik)) in * by exact N; exact H. Qed.
Lemma none_flips l X I : NoDup X -> incl l X -> none l (flips X I) = full l I.
Proof. intros N S. unfold full, none. apply eq_true_iff_eq. rewrite !forallb_forall. split; intros H k Ik; specialize (H k Ik); rewrite bit_flips, (proj2 (mem_In k X) (S k Ik)) in * by exact N; rewrite negb_involutive in *; exact H. Qed.
Lemma NoDup_split (a b : list nat) : NoDup (a ++ b) -> NoDup a /\ NoDup b /\ forall k, In k a -> ~ In k b.
Proof.
  induction a as [|x r IH]; intros N; [split; [constructor|split; [exact N|intros k []]]|]. cbn [app] in N. inversion N as [|? ? Nx Nr]; subst. rewrite in_app_iff in Nx. destruct (IH Nr) as (A & B & D).
  split; [constructor; tauto|]. split; [exact B|]. intros k [<-|I]; [tauto|now apply D].
Qed.
Lemma none_off cre l I : NoDup cre -> (forall k, In k cre -> ~ In k l) -> forallb (fun k => negb (bit (flips cre I) k)) l = none l I.
Proof. intros N D. unfold none. apply eq_true_iff_eq. rewrite !forallb_forall. split; intros H k Ik; specialize (H k Ik); rewrite bit_flips, (proj2 (mem_not k cre)) in * by (try exact N; intros K; now apply (D k)); exact H. Qed.
(** lists are fine *)
Definition act_set (cre ann : list nat) (I : nat) : bool := (full cre I && none ann I) || (none cre I && full ann I).
Lemma act_flips cre ann I : NoDup (cre ++ ann) -> act_set cre ann (flips (cre ++ ann) I) = act_set cre ann I.
Proof.
  intros N. unfold act_set. rewrite !full_flips, !none_flips by (try exact N; intros k Ik; apply in_app_iff; tauto). now rewrite orb_comm, (andb_comm (full cre I)), (andb_comm (none cre I)).
Qed.
Definition kappa (cre ann : list nat) : list fterm := [(C1, cre, ann); ((- C1)%C, ann, cre)].
Lemma full_none_clash x l I : full (x :: l) I = true -> none (x :: l) I = false.
Proof. unfold full, none. cbn [forallb]. destruct (bit I x); [reflexivity|discriminate]. Qed.
Lemma ladder_plain (c0 : nat) cr ann psi I : NoDup ((c0 :: cr) ++ ann) ->
  ladder_act (c0 :: cr) ann psi I = if full (c0 :: cr) I && none ann I then (sgn (xorb (cs (c0 :: cr) I) (cs ann (flips (c0 :: cr) I))) * psi (flips ((c0 :: cr) ++ ann) I))%C else C0.
Proof.
  intros N. destruct (NoDup_split _ _ N) as (N1 & N2 & D). rewrite ladder_eval by assumption. rewrite none_off by assumption. rewrite flips_app. reflexivity.
Qed.
Lemma qladder_plain (c0 : nat) cr ann psi I : NoDup ((c0 :: cr) ++ ann) ->
  qladder_act (c0 :: cr) ann psi I = if full (c0 :: cr) I && none ann I then psi (flips ((c0 :: cr) ++ ann) I) else C0.
Proof.
  intros N. destruct (NoDup_split _ _ N) as (N1 & N2 & D). rewrite qladder_eval by assumption. rewrite none_off by assumption. rewrite flips_app. reflexivity.
Qed.
Lemma cleared_comm a b I : cleared (b ++ a) I = cleared (a ++ b) I.
Proof. apply bits_ext. intros k. rewrite !bit_cleared, !mem_app. now rewrite orb_comm. Qed.
(** the generator of a fermionic excitation *)
Lemma fermi_generator c0 cr a0 ar psi I : desc (c0 :: cr) -> desc (a0 :: ar) -> length cr = length ar -> NoDup ((c0 :: cr) ++ (a0 :: ar)) ->
  generator (act_set (c0 :: cr) (a0 :: ar)) c0 (flips ((c0 :: cr) ++ (a0 :: ar))) (fun I => sgn (tri (length (c0 :: cr))) * sgn (parity (cnot_indices ((c0 :: cr) ++ (a0 :: ar))) I))%C psi I
  = fermi_act (kappa (c0 :: cr) (a0 :: ar)) psi I.
Proof.
  intros D1 D2 L N. set (cre := c0 :: cr) in *. set (ann := a0 :: ar) in *.
  assert (N' : NoDup (ann ++ cre)) by (eapply Permutation.Permutation_NoDup; [apply Permutation.Permutation_app_comm|exact N]).
  assert (P : parity (cnot_indices (cre ++ ann)) I = xs (odd_below (cleared (cre ++ ann) I)) (cre ++ ann)).
  { rewrite <- (app_nil_r (cre ++ ann)) at 2. rewrite <- parity_indices. f_equal. symmetry. clear. induction (cnot_indices (cre ++ ann)) as [|x r IH]; [reflexivity|]. cbn [filter]. change (mem x []) with false. cbn [negb]. now rewrite IH. }
  unfold fermi_act, kappa, generator. rewrite !Csum_cons, Csum_nil. unfold fcoef, fcre, fann. cbn [fst snd].
  unfold cre at 4 5, ann at 5. rewrite (ladder_plain c0 cr ann psi I N). rewrite (ladder_plain a0 ar cre psi I N'). fold cre ann.
  unfold act_set. rewrite P.
  assert (B1 : full cre I = true -> bit I c0 = true) by (intros H; apply (proj1 (full_In cre I) H); now left).
  assert (B2 : none cre I = true -> bit I c0 = false) by (intros H; apply (proj1 (none_In cre I) H); now left).
  destruct (full cre I) eqn:F1; cbn [andb orb].
  - pose proof (full_none_clash c0 cr I F1) as F2. fold cre in F2. rewrite F2. cbn [andb]. rewrite andb_false_r, orb_false_r. destruct (none ann I) eqn:F3; [|ring].
    rewrite (word_sign cre ann I D1 D2 (proj1 (full_In cre I) F1) (proj1 (none_In ann I) F3)), (B1 eq_refl), <- sgn_x. apply C_ext; cbn; ring.
  - destruct (none cre I) eqn:F2; cbn [andb]; [|rewrite andb_false_r; ring]. rewrite andb_true_r. destruct (full ann I) eqn:F3; [|ring].
    rewrite (word_sign ann cre I D2 D1 (proj1 (full_In ann I) F3) (proj1 (none_In cre I) F2)), (B2 eq_refl). rewrite (flips_comm cre ann I N). rewrite (cleared_comm cre ann), (xs_app _ ann cre), (xorb_comm (xs _ ann)), <- xs_app.
    replace (length ann) with (length cre) by (cbn; now rewrite L). rewrite <- sgn_x. apply C_ext; cbn; ring.
Qed.
Lemma qexc_generator c0 cr a0 ar psi I : NoDup ((c0 :: cr) ++ (a0 :: ar)) ->
  generator (act_set (c0 :: cr) (a0 :: ar)) c0 (flips ((c0 :: cr) ++ (a0 :: ar))) (fun _ => C1) psi I = qexc_act (kappa (c0 :: cr) (a0 :: ar)) psi I.
Proof.
  intros N. set (cre := c0 :: cr) in *. set (ann := a0 :: ar) in *.
  assert (N' : NoDup (ann ++ cre)) by (eapply Permutation.Permutation_NoDup; [apply Permutation.Permutation_app_comm|exact N]).
  unfold qexc_act, kappa, generator. rewrite !Csum_cons, Csum_nil. unfold fcoef, fcre, fann. cbn [fst snd].
  pose proof (qladder_plain c0 cr ann psi I N) as Q1. pose proof (qladder_plain a0 ar cre psi I N') as Q2. fold cre in Q1. fold ann in Q2. rewrite Q1, Q2. fold cre ann. unfold act_set.
  assert (B1 : full cre I = true -> bit I c0 = true) by (intros H; apply (proj1 (full_In cre I) H); now left).
  assert (B2 : none cre I = true -> bit I c0 = false) by (intros H; apply (proj1 (none_In cre I) H); now left).
  destruct (full cre I) eqn:F1; cbn [andb orb].
  - pose proof (full_none_clash c0 cr I F1) as F2. fold cre in F2. rewrite F2. cbn [andb]. rewrite andb_false_r, orb_false_r. destruct (none ann I) eqn:F3; [|ring]. rewrite (B1 eq_refl). apply C_ext; cbn; ring.
  - destruct (none cre I) eqn:F2; cbn [andb]; [|rewrite andb_false_r; ring]. rewrite andb_true_r. destruct (full ann I) eqn:F3; [|ring]. rewrite (B2 eq_refl), (flips_comm cre ann I N). apply C_ext; cbn; ring.
Qed.

Lemma filter_all (a b : list nat) : (forall k, In k a -> ~ In k b) -> filter (fun x => negb (mem x b)) a = a /\ filter (fun x => mem x b) a = [].
Proof.
  induction a as [|x r IH]; intros D; [split; reflexivity|]. destruct IH as (A & B); [intros k Ik; apply D; now right|]. cbn [filter]. rewrite (proj2 (mem_not x b)) by (apply D; now left). cbn [negb]. rewrite A, B. split; reflexivity.
Qed.
Lemma is_exp_op c A B psi phi : (forall p I, A p I = B p I) -> is_exp c A psi phi -> is_exp c B psi phi.
Proof. intros E. replace B with A; [auto|]. extensionality p. extensionality I. apply E. Qed.
Lemma is_exp_res c A psi phi phi' : (forall I, phi I = phi' I) -> is_exp c A psi phi -> is_exp c A psi phi'.
Proof. intros E. replace phi' with phi; [auto|]. extensionality I. apply E. Qed.
Lemma rotate_ext A A' b b' c0 F sg sg' psi I : A I = A' I -> b = b' -> sg I = sg' I -> rotate A b c0 F sg psi I = rotate A' b' c0 F sg' psi I.
Proof. intros E1 -> E3. unfold rotate. now rewrite E1, E3. Qed.
Lemma act_sigma cre ann l I : (forall k, In k (cre ++ ann) -> ~ In k l) -> act_set cre ann (sigma (stair_pairs l) I) = act_set cre ann I.
Proof.
  intros D. assert (S : forall m, incl m (cre ++ ann) -> full m (sigma (stair_pairs l) I) = full m I /\ none m (sigma (stair_pairs l) I) = none m I).
  { intros m Im. unfold full, none. split; apply eq_true_iff_eq; rewrite !forallb_forall; split; intros H k Ik; specialize (H k Ik); rewrite stair_off in * by (apply D, Im, Ik); exact H. }
  unfold act_set. destruct (S cre) as (E1 & E2); [intros k Ik; apply in_app_iff; tauto|]. destruct (S ann) as (E3 & E4); [intros k Ik; apply in_app_iff; tauto|]. now rewrite E1, E2, E3, E4.
Qed.
Lemma generator_exp cre ann c0 sg y psi : NoDup (cre ++ ann) -> In c0 cre -> (forall I, (sg I * sg (flips (cre ++ ann) I))%C = C1) ->
  is_exp (RtoC y) (generator (act_set cre ann) c0 (flips (cre ++ ann)) sg) psi (rotate (act_set cre ann) y c0 (flips (cre ++ ann)) sg psi).
Proof.
  intros N Ic Hs. apply rotate_is_exp.
  - intros I E. now rewrite act_flips.
  - intros I _. now apply flips_twice.
  - intros I _. rewrite bit_flips, (proj2 (mem_In c0 _)) by (try exact N; apply in_app_iff; tauto). reflexivity.
  - intros I _. apply Hs.
Qed.
Lemma sgn_sq b : (sgn b * sgn b)%C = C1.
Proof. destruct b; cbn [sgn]; ring. Qed.

Theorem compact_fermi th cre ann : cre <> [] -> length cre = length ann -> desc cre -> desc ann -> (forall k, In k cre -> ~ In k ann) ->
  exists circ, compact_excitation_circuit (RtoC th) cre ann false = Ok circ /\ forall psi, is_exp (RtoC th) (fermi_act (kappa cre ann)) psi (circ_act circ psi).
Proof.
  intros Ne L D1 D2 D. destruct cre as [|c0 cr]; [contradiction|]. destruct ann as [|a0 ar]; [discriminate|]. injection L as L.
  set (cre := c0 :: cr) in *. set (ann := a0 :: ar) in *.
  assert (N : NoDup (cre ++ ann)) by (apply LoopProofs.NoDup_app_disj; [apply desc_NoDup, D1 | apply desc_NoDup, D2 | exact D]).
  unfold compact_excitation_circuit. replace (length cre =? length ann) with true by (symmetry; apply Nat.eqb_eq; unfold cre, ann; cbn; lia). cbn [negb].
  destruct (filter_all cre ann D) as (E1 & E2). destruct (filter_all ann cre) as (E3 & _); [intros k K1 K2; now apply (D k)|]. rewrite E1, E2, E3. cbn [nodup length Nat.ltb Nat.leb bind].
  unfold cre at 1. rewrite sign_model. fold cre. cbn [bind].
  destruct (qubit_excitation_spec th c0 cr a0 ar [] 1 false N) as (U & EU & HU); [intros []|]. change (qubit_excitation (RtoC th) cre ann [] 1 false = Ok U) in EU. rewrite EU. cbn [bind]. eexists. split; [reflexivity|]. intros psi. fold cre ann in HU.
  set (l := cnot_indices (cre ++ ann)). assert (Nl : NoDup l) by apply indices_NoDup. assert (Dl : forall k, In k (cre ++ ann) -> ~ In k l) by (intros k; apply indices_off).
  assert (Ic : In c0 (cre ++ ann)) by (now left).
  apply (is_exp_op _ (generator (act_set cre ann) c0 (flips (cre ++ ann)) (fun I => sgn (tri (length cre)) * sgn (parity l I))%C)); [intros p I; apply fermi_generator; assumption|].
  apply (is_exp_res _ _ _ (rotate (act_set cre ann) th c0 (flips (cre ++ ann)) (fun I => (sgn (tri (length cre)) * sgn (parity l I))%C) psi)).
  2: { apply generator_exp; [exact N | now left|]. intros I. rewrite (parity_ext l (flips (cre ++ ann) I) I). 2: { intros k Ik. rewrite bit_flips by exact N. destruct (mem k (cre ++ ann)) eqn:E; [apply mem_In in E; exfalso; now apply (Dl k)|reflexivity]. }
       transitivity ((sgn (tri (length cre)) * sgn (tri (length cre))) * (sgn (parity l I) * sgn (parity l I)))%C; [ring|]. rewrite !sgn_sq. ring. }
  intros I. symmetry. rewrite (stair_all c0 l (cre ++ ann) U (act_set cre ann) (ry_factor (length ann) 1 false * th)); [|exact Nl|exact N|exact Dl|exact Ic|intros J; apply act_sigma, Dl|].
  - rewrite <- rotate_sign. apply rotate_ext; [reflexivity| |reflexivity]. f_equal. unfold ry_factor. rewrite prefactor_tri by (unfold ann; cbn; lia). replace (length ann) with (length cre) by (unfold cre, ann; cbn; lia). destruct (tri (length cre)); ring.
  - intros p J. rewrite HU. apply rotate_ext; [apply excites_plain, N | reflexivity | reflexivity].
Qed.
Theorem compact_qubit th cre ann : cre <> [] -> length cre = length ann -> NoDup cre -> NoDup ann -> (forall k, In k cre -> ~ In k ann) ->
  exists circ, compact_excitation_circuit (RtoC th) cre ann true = Ok circ /\ forall psi, is_exp (RtoC th) (qexc_act (kappa cre ann)) psi (circ_act circ psi).
Proof.
  intros Ne L D1 D2 D. destruct cre as [|c0 cr]; [contradiction|]. destruct ann as [|a0 ar]; [discriminate|]. injection L as L.
  set (cre := c0 :: cr) in *. set (ann := a0 :: ar) in *.
  assert (N : NoDup (cre ++ ann)) by (apply LoopProofs.NoDup_app_disj; [exact D1 | exact D2 | exact D]).
  unfold compact_excitation_circuit. replace (length cre =? length ann) with true by (symmetry; apply Nat.eqb_eq; unfold cre, ann; cbn; lia). cbn [negb].
  destruct (filter_all cre ann D) as (E1 & E2). destruct (filter_all ann cre) as (E3 & _); [intros k K1 K2; now apply (D k)|]. rewrite E1, E2, E3. cbn [nodup length Nat.ltb Nat.leb bind].
  destruct (qubit_excitation_spec th c0 cr a0 ar [] 1 true N) as (U & EU & HU); [intros []|]. change (qubit_excitation (RtoC th) cre ann [] 1 true = Ok U) in EU. rewrite EU. cbn [bind]. eexists. split; [reflexivity|]. intros psi. fold cre ann in HU.
  apply (is_exp_op _ (generator (act_set cre ann) c0 (flips (cre ++ ann)) (fun _ => C1))); [intros p I; apply qexc_generator; assumption|].
  apply (is_exp_res _ _ _ (rotate (act_set cre ann) th c0 (flips (cre ++ ann)) (fun _ => C1) psi)); [|apply generator_exp; [exact N|now left|intros; ring]].
  intros I. rewrite app_nil_r. cbn [app]. rewrite HU. apply rotate_ext; [symmetry; apply excites_plain, N | unfold ry_factor; ring | reflexivity].
Qed.
