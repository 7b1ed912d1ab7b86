(** Determinants excited from the reference, real states, residual elements. *)
From Coq Require Import Reals String List Arith NArith Bool Lia Lra Sorted.
From Verif Require Import CBase Result Bits Spec OpSpec GateModel ComputerModel SafeProofs LibProofs SimProofs CircuitModel PauliProofs OperatorModel OperatorProofs MeasureModel SQSpec SQModel SQPoolModel CompactModel CompactAct CompactFermi CompactProofs CompactGsd TwoLevel GateEval ThreeQubit ExpSpec AnsatzSpec AnsatzGen AnsatzJW AnsatzProofs PauliPhase PyApply GradModel GradCalc GradAnsatz ResModel PropMeasure.
From Verif Require PropPool.
Import ListNotations.
Local Open Scope nat_scope.

(** the determinant with the occupations of the list *)
Definition is_det (ref : list nat) (D : nat) : Prop := forall q, bit D q = negb (Nat.eqb (nth q ref 0) 0).
(** ---- bits ---- *)
Lemma small_bits x k : (x < 2 ^ 64)%N -> 64 <= k -> bit (N.to_nat x) k = false.
Proof. intros H Hk. rewrite FermiProofs.occ_bit. unfold SQPoolSpec.occ. destruct (N.eq_dec x 0) as [->|n0]; [apply N.bits_0|]. apply N.bits_above_log2. apply N.log2_lt_pow2; [lia|]. eapply N.lt_le_trans; [exact H|]. apply N.pow_le_mono_r; lia. Qed.
Lemma fill_bits ref : forall j x, j + length ref <= 64 -> (x < 2 ^ 64)%N -> exists x', foreach (combine (seq j (length ref)) ref) (fun ko det => qb_set_bit det (fst ko) (negb (Nat.eqb (snd ko) 0))) x = Ok x' /\ (x' < 2 ^ 64)%N /\
  forall q, bit (N.to_nat x') q = if (j <=? q) && (q <? j + length ref) then negb (Nat.eqb (nth (q - j) ref 0) 0) else bit (N.to_nat x) q.
Proof.
  induction ref as [|o r IH]; intros j x L Hx.
  - exists x. split; [reflexivity|]. split; [exact Hx|]. intros q. cbn [length]. destruct (Nat.leb_spec j q), (Nat.ltb_spec q (j + 0)); try reflexivity; lia.
  - cbn [length] in L. cbn [length seq combine foreach fst snd].
    destruct (PropPool.C36_basis_bits x j Hx) as (_ & HS & _); [lia|]. destruct (HS (negb (Nat.eqb o 0))) as (x1 & E1 & B1 & U1). rewrite E1. cbn [bind].
    destruct (IH (S j) x1) as (x' & E & B & V); [lia|exact B1|]. exists x'. split; [exact E|]. split; [exact B|]. intros q. rewrite (V q), U1, bit_upd.
    destruct (Nat.leb_spec (S j) q), (Nat.leb_spec j q), (Nat.ltb_spec q (S j + length r)), (Nat.ltb_spec q (j + S (length r))), (Nat.eqb_spec q j); cbn [andb]; try lia; try reflexivity.
    + replace (q - j) with (S (q - S j)) by lia. reflexivity.
    + replace (q - j) with 0 by lia. reflexivity.
Qed.
Lemma start_det ref : length ref <= 64 -> exists x D, foreach (combine (seq 0 (length ref)) ref) (fun ko det => qb_set_bit det (fst ko) (negb (Nat.eqb (snd ko) 0))) (N.of_nat (length ref)) = Ok x /\ (x < 2 ^ 64)%N /\ N.to_nat x = D /\ is_det ref D.
Proof.
  intros L. destruct (fill_bits ref 0 (N.of_nat (length ref))) as (x & E & B & V); [lia|apply (N.le_lt_trans _ 64); [lia|reflexivity]|].
  exists x, (N.to_nat x). split; [exact E|]. split; [exact B|]. split; [reflexivity|]. intros q. rewrite (V q), Nat.sub_0_r, Nat2N.id. cbn [Nat.leb andb plus]. destruct (Nat.ltb_spec q (length ref)) as [Q|Q]; [reflexivity|].
  rewrite nth_overflow by exact Q. cbn. apply (proj1 (lt_pow2_bits (length ref) (length ref))); [|exact Q]. apply Nat.pow_gt_lin_r. lia.
Qed.
Lemma set_orbitals_ok val l : forall x, NoDup l -> (x < 2 ^ 64)%N -> Forall (fun p => p < 64) l -> (forall p, In p l -> bit (N.to_nat x) p = negb val) ->
  exists x', set_orbitals val l x = Ok (x', false) /\ (x' < 2 ^ 64)%N /\ N.to_nat x' = flips l (N.to_nat x).
Proof.
  induction l as [|p l IH]; intros x N Hx F HB; [exists x; split; [reflexivity|split; [exact Hx|reflexivity]]|]. cbn [set_orbitals].
  apply NoDup_cons_iff in N. destruct N as (Np & N). pose proof (Forall_inv F) as Hp. pose proof (Forall_inv_tail F) as F'.
  destruct (PropPool.C36_basis_bits x p Hx Hp) as (HG & HS & _). rewrite HG. cbn [bind]. rewrite (HB p (or_introl eq_refl)).
  destruct (HS val) as (x1 & E1 & B1 & U1).
  assert (Ev : Bool.eqb (negb val) val = false) by (destruct val; reflexivity). rewrite Ev, E1. cbn [bind].
  destruct (IH x1 N B1 F') as (x' & E & B & V). { intros q Iq. rewrite U1, bit_upd. destruct (Nat.eqb_spec q p) as [->|_]; [contradiction|]. apply HB. now right. }
  exists x'. split; [exact E|]. split; [exact B|]. rewrite V, U1. change (flips (p :: l) (N.to_nat x)) with (flips l (flip (N.to_nat x) p)). f_equal. apply bits_ext. intros k. rewrite bit_upd, bit_flip.
  destruct (Nat.eqb_spec k p) as [->|Nk]; [|reflexivity]. rewrite (HB p (or_introl eq_refl)). now destruct val.
Qed.
(** the orbitals of H are occupied in ref and those of P are empty *)
Definition excites (ref : list nat) (P H : list nat) : Prop := Forall (fun p => p < length ref /\ nth p ref 0 = 0) P /\ Forall (fun p => p < length ref /\ nth p ref 0 <> 0) H.
Lemma flips_perm a b I : Permutation.Permutation a b -> flips a I = flips b I.
Proof.
  intros P. revert I. induction P as [|x a b P IH|x y a|a b c P1 IH1 P2 IH2]; intros I; [reflexivity|exact (IH (flip I x))| |now rewrite IH1].
  change (flips a (flip (flip I y) x) = flips a (flip (flip I x) y)). f_equal. apply bits_ext. intros k. rewrite !bit_flip. destruct (Nat.eqb k x), (Nat.eqb k y); reflexivity.
Qed.
Lemma excites_disjoint ref P H k : excites ref P H -> In k P -> ~ In k H.
Proof. intros (A & B) K K'. rewrite Forall_forall in *. apply (proj2 (B k K')). now apply A. Qed.
Lemma nodup_both ref P H : excites ref P H -> NoDup P -> NoDup H -> NoDup (P ++ H).
Proof.
  intros HX NP NH. induction NP as [|x P Nx _ IH]; [exact NH|]. cbn [app]. constructor.
  - rewrite in_app_iff. intros [K|K]; [contradiction|]. exact (excites_disjoint ref (x :: P) H x HX (or_introl eq_refl) K).
  - apply IH. destruct HX as (A & B). split; [exact (Forall_inv_tail A)|exact B].
Qed.
Lemma det_bits ref D P H : is_det ref D -> excites ref P H -> (forall p, In p P -> bit D p = false) /\ (forall p, In p H -> bit D p = true).
Proof.
  intros HD (A & B). rewrite Forall_forall in *. split; intros p Ip; rewrite (HD p).
  - rewrite (proj2 (A p Ip)). reflexivity.
  - destruct (Nat.eqb_spec (nth p ref 0) 0) as [E|_]; [|reflexivity]. now elim (proj2 (B p Ip)).
Qed.
Lemma excited_det_ok ref D P H : length ref <= 64 -> is_det ref D -> excites ref P H -> NoDup P -> NoDup H -> excited_det ref P H = Ok (flips (P ++ H) D).
Proof.
  intros L HD HX NP NH. unfold excited_det. destruct (start_det ref L) as (x & D' & E & B & ED & HD'). rewrite E. cbn [bind].
  assert (DD : D' = D) by (apply bits_ext; intros k; now rewrite (HD k), (HD' k)). subst D'. destruct (det_bits ref D P H HD HX) as (BP & BH).
  assert (L64 : forall l, (forall p, In p l -> In p P \/ In p H) -> Forall (fun p => p < 64) l). { intros l Hl. destruct HX as (A1 & A2). rewrite Forall_forall in *. intros p Ip. destruct (Hl p Ip) as [K|K]; [specialize (A1 p K)|specialize (A2 p K)]; lia. }
  destruct (set_orbitals_ok false (rev H) x) as (x1 & E1 & B1 & V1); [now apply NoDup_rev|exact B|apply L64; intros p Ip; right; now apply in_rev|intros p Ip; rewrite DD; apply BH; now apply in_rev|]. rewrite E1. cbn [bind fst snd].
  destruct (set_orbitals_ok true (rev P) x1) as (x2 & E2 & B2 & V2); [now apply NoDup_rev|exact B1|apply L64; intros p Ip; left; now apply in_rev| |].
  { intros p Ip. apply in_rev in Ip. rewrite V1, DD, CompactAct.bit_flips by now apply NoDup_rev. rewrite (proj2 (mem_not p (rev H))); [now apply BP|]. intros K. apply in_rev in K. exact (excites_disjoint ref P H p HX Ip K). }
  rewrite E2. cbn [bind fst snd orb]. f_equal. rewrite V2, V1, DD. rewrite <- flips_app. apply flips_perm. rewrite Permutation.Permutation_app_comm. apply Permutation.Permutation_app; apply Permutation.Permutation_sym, Permutation.Permutation_rev.
Qed.
Lemma det_small ref D : is_det ref D -> D < 2 ^ length ref.
Proof. intros HD. apply lt_pow2_bits. intros k Hk. rewrite (HD k), nth_overflow by exact Hk. reflexivity. Qed.
Lemma flips_small n l I : Forall (fun p => p < n) l -> I < 2 ^ n -> flips l I < 2 ^ n.
Proof. intros F. revert I. induction F as [|p l Hp _ IH]; intros I HI; [exact HI|]. apply (IH (flip I p)). now apply flip_lt. Qed.
(** ---- a (T - T^dagger) on the determinant ---- *)
Lemma excite_ket qe a P H D : P <> [] -> H <> [] -> length P = length H -> desc P -> desc H -> NoDup (P ++ H) -> act_set P H D = true ->
  exists k, (k = 1 \/ k = -1)%R /\ forall J, act qe (Antihermitian a P H) (ket D) J = (RtoC (a * k) * ket (flips (P ++ H) D) J)%C.
Proof.
  intros NeP NeH L DP DH N A. destruct P as [|c0 cr]; [contradiction|]. destruct H as [|a0 ar]; [contradiction|]. set (P := c0 :: cr) in *. set (H := a0 :: ar) in *.
  set (l := CompactModel.cnot_indices (P ++ H)).
  set (k := kfun (act_set P H) c0 (if qe then (fun _ => false) else (fun I => xorb (CompactFermi.tri (length P)) (parity l I)))).
  assert (G : forall psi I, act qe (kappa P H) psi I = gen (flips (P ++ H)) k psi I).
  { intros psi I. unfold act. destruct qe.
    + etransitivity; [symmetry; exact (qexc_generator c0 cr a0 ar psi I N)|]. apply kfun_gen. reflexivity.
    + etransitivity; [symmetry; refine (fermi_generator c0 cr a0 ar psi I DP DH _ N); now injection L|]. apply kfun_gen. now rewrite <- sgn_x. }
  set (E := flips (P ++ H) D). exists (k E). assert (AE : act_set P H E = true) by (unfold E; now rewrite act_flips).
  split. { unfold k, kfun. rewrite AE. destruct (bit E c0), ((if qe then (fun _ => false) else (fun I => xorb (CompactFermi.tri (length P)) (parity l I))) E); [right|left|left|right]; ring. }
  intros J. rewrite act_pair, G. unfold gen. unfold ket at 1. destruct (Nat.eqb_spec (flips (P ++ H) J) D) as [Q|Q].
  - assert (J = E) by (unfold E; rewrite <- Q; symmetry; now apply flips_twice). subst J. unfold ket. rewrite Nat.eqb_refl. apply C_ext; cbn; ring.
  - unfold ket. destruct (Nat.eqb_spec J E) as [->|_]; [elim Q; unfold E; now apply flips_twice|]. apply C_ext; cbn; ring.
Qed.
Lemma excites_set ref D P H : is_det ref D -> excites ref P H -> act_set P H D = true.
Proof. intros HD HX. destruct (det_bits ref D P H HD HX) as (BP & BH). unfold act_set. apply orb_true_iff. right. apply andb_true_iff. split; [now apply none_In|now apply full_In]. Qed.
Lemma act_set_swap P H D : act_set P H D = act_set H P D.
Proof. unfold act_set. rewrite orb_comm. f_equal; apply andb_comm. Qed.

(** ---- real states ---- *)
(** [false]: real; [true]: imaginary *)
Definition on_axis (b : bool) (psi : state) : Prop := forall I, (if b then Re (psi I) else Im (psi I)) = 0%R.
Lemma axis_X t b psi : on_axis b psi -> on_axis b (act1 m_X t psi).
Proof. intros H I. rewrite ev_X. apply H. Qed.
Lemma axis_Z t b psi : on_axis b psi -> on_axis b (act1 m_Z t psi).
Proof. intros H I. rewrite ev_Z. specialize (H I). unfold GateEval.sgn. destruct b, (bit I t); cbn in *; nra. Qed.
Lemma axis_Y t b psi : on_axis b psi -> on_axis (negb b) (act1 m_Y t psi).
Proof. intros H I. unfold act1, m_Y, mk44. pose proof (H (upd I t false)) as H0. pose proof (H (upd I t true)) as H1. destruct b, (bit I t); cbn in *; nra. Qed.
Lemma axis_string gs : Forall pauli_gate gs -> forall b psi, on_axis b psi -> on_axis (xorb b (Nat.odd (count_Y gs))) (circ_act gs psi).
Proof.
  induction 1 as [|g gs Hg _ IH]; intros b psi HP; [unfold count_Y; cbn; now rewrite xorb_false_r|]. rewrite circ_act_cons. pose proof (pauli_act g psi Hg) as E. destruct Hg as (Hl & _).
  assert (G : forall m, gate_act g psi = act1 m (gtarget g) psi -> forall b', on_axis b' (act1 m (gtarget g) psi) -> xorb b' (Nat.odd (count_Y gs)) = xorb b (Nat.odd (count_Y (g :: gs))) -> on_axis (xorb b (Nat.odd (count_Y (g :: gs)))) (circ_act gs (gate_act g psi))).
  { intros m E1 b' A <-. rewrite E1. now apply IH. }
  unfold count_Y in *. cbn [filter] in *. destruct (pauli_label_cases _ Hl) as [El|[El|El]]; rewrite El in *; cbn [String.eqb Ascii.eqb Bool.eqb] in *.
  - apply (G m_X) with (b' := b); [|now apply axis_X|reflexivity]. exact E.
  - apply (G m_Y) with (b' := negb b); [|now apply axis_Y|cbn [length]; rewrite Nat.odd_succ, <- Nat.negb_odd; now destruct b, (Nat.odd _)]. exact E.
  - apply (G m_Z) with (b' := b); [|now apply axis_Z|reflexivity]. exact E.
Qed.
Definition real_state (psi : state) : Prop := forall I, Im (psi I) = 0%R.
Lemma real_sum {A} (f : A -> C) l : (forall x, In x l -> Im (f x) = 0%R) -> Im (Csum f l) = 0%R.
Proof. induction l as [|x l IH]; intros H; [reflexivity|]. rewrite Csum_cons. cbn. rewrite (H x (or_introl eq_refl)), IH by (intros y Iy; apply H; now right). ring. Qed.
Lemma real_op o psi : Forall (fun t => Im (fst t) = 0%R /\ Forall pauli_gate (snd t) /\ Nat.even (count_Y (snd t)) = true) o -> real_state psi -> real_state (op_act o psi).
Proof.
  intros F HP I. unfold op_act. apply real_sum. intros t It. rewrite Forall_forall in F. destruct (F t It) as (H1 & H2 & H3). pose proof (axis_string _ H2 false psi HP I) as A. rewrite <- Nat.negb_even, H3 in A. cbn in A |- *. rewrite H1, A. ring.
Qed.
Lemma real_product l : Forall real_factor l -> forall psi phi, exp_product l psi phi -> real_state psi -> real_state phi.
Proof.
  induction 1 as [|[c A] l (H1 & H2) _ IH]; intros psi phi E HP; [intros I; rewrite (E I); apply HP|]. cbn [fst snd] in *. destruct E as (chi & E1 & E2). apply (IH chi phi E2). intros I.
  replace c with (RtoC (Re c)) in E1 by (apply C_ext; cbn; auto). destruct (two_level_eq A H2) as (F & r & F1 & F2 & ->). rewrite (gen_exp_unique F F1 r _ _ _ F2 E1 I). unfold rot. cbn. rewrite !HP. ring.
Qed.
Lemma real_inner n a b : real_state a -> real_state b -> Im (inner n a b) = 0%R.
Proof. intros HA HB. apply real_sum. intros I _. cbn. rewrite HA, HB. ring. Qed.
Lemma real_ket D : real_state (ket D).
Proof. intros I. unfold ket. now destruct (Nat.eqb I D). Qed.
(** ---- the residual elements ---- *)
Definition draws (noise_factor : R) (normal : nat -> R -> R -> R) (rs : list C) : list C :=
  if Rltb 1e-12 noise_factor then map (fun k => RtoC (normal k (Re (nth k rs C0)) noise_factor)) (seq 0 (length rs)) else rs.
Lemma elements_real noise normal coeffs dets vs : Forall2 (fun d v => nth_error coeffs (fst d) = Some v) dets vs -> Forall2 (fun d v => Im (v * snd d)%C = 0%R) dets vs ->
  residual_elements noise normal coeffs dets = Ok (draws noise normal (map (fun dv => (snd dv * snd (fst dv))%C) (combine dets vs))).
Proof.
  intros F1 F2. unfold residual_elements, draws. set (body := fun (d : nat * C) (rs : list C) => _).
  assert (LV : length dets = length vs) by (clear - F1; induction F1; cbn [length]; congruence).
  enough (G : forall rs, foreach dets body rs = Ok (rs ++ (if Rltb 1e-12 noise then map (fun k => RtoC (normal (length rs + k) (Re (nth k (map (fun dv => (snd dv * snd (fst dv))%C) (combine dets vs)) C0)) noise)) (seq 0 (length dets)) else map (fun dv => (snd dv * snd (fst dv))%C) (combine dets vs)))%list).
  { rewrite (G []). cbn [app length plus]. rewrite map_length, combine_length, <- LV, Nat.min_id. reflexivity. }
  clear LV. revert F2. induction F1 as [|d v dets vs Hv _ IH]; intros F2 rs.
  - cbn [foreach combine map length seq]. destruct (Rltb _ _); now rewrite app_nil_r.
  - assert (HH : Im (v * snd d)%C = 0%R /\ Forall2 (fun d v => Im (v * snd d)%C = 0%R) dets vs) by (inversion F2; split; assumption). destruct HH as (H1 & H2). cbn [foreach]. unfold body at 1, py_get. rewrite Hv. cbn [bind]. cbv zeta. destruct (Req_EM_T (Im (v * snd d)%C) 0) as [_|Z]; [|contradiction].
    cbn [bind]. rewrite (IH H2). f_equal. destruct (Rltb 1e-12 noise); rewrite <- app_assoc; cbn [app combine map length seq fst snd nth]; [|reflexivity]. rewrite Nat.add_0_r. do 2 f_equal. rewrite <- seq_shift, map_map. apply map_ext. intros k. rewrite app_length. cbn [length nth]. replace (length rs + 1 + k) with (length rs + S k) by lia. reflexivity.
Qed.
Lemma elements_complex noise normal coeffs dets vs : Forall2 (fun d v => nth_error coeffs (fst d) = Some v) dets vs -> Exists (fun dv => Im (snd dv * snd (fst dv))%C <> 0%R) (combine dets vs) ->
  residual_elements noise normal coeffs dets = Throw (PyError "ValueError").
Proof.
  unfold residual_elements. set (body := fun (d : nat * C) (rs : list C) => _). generalize (@nil C) as rs. intros rs F1 X. revert rs. induction F1 as [|d v dets vs Hv _ IH]; intros rs; [inversion X|]. cbn [combine] in X.
  cbn [foreach]. unfold body at 1, py_get. rewrite Hv. cbn [bind]. cbv zeta. destruct (Req_EM_T (Im (v * snd d)%C) 0) as [Z|_]; [|reflexivity]. cbn [bind]. apply IH. inversion X as [? ? H1|? ? H1]; subst; [contradiction|exact H1].
Qed.
Lemma inner_ket n I psi : I < 2 ^ n -> inner n (ket I) psi = psi I.
Proof.
  intros H. unfold inner. rewrite (Csum_ext _ (fun J => if Nat.eqb J I then psi J else C0)).
  - rewrite <- Csum_filter. assert (E : filter (fun J => Nat.eqb J I) (seq 0 (2 ^ n)) = [I]).
    { clear psi. revert H. generalize (2 ^ n) as m. intros m H. replace m with (I + S (m - S I)) by lia. rewrite seq_app, filter_app. cbn [seq filter plus]. rewrite Nat.eqb_refl.
      assert (Z : forall s k, I < s \/ s + k <= I -> filter (fun J => Nat.eqb J I) (seq s k) = []). { intros s k. revert s. induction k as [|k IH]; intros s Hs; [reflexivity|]. cbn [seq filter]. destruct (Nat.eqb_spec s I); [lia|]. apply IH. lia. }
      rewrite !Z by lia. reflexivity. }
    rewrite E, Csum_cons, Csum_nil. apply C_ext; cbn; ring.
  - intros J _. unfold ket. destruct (Nat.eqb J I); apply C_ext; cbn; ring.
Qed.
