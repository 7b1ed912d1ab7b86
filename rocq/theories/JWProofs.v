(** Jordan-Wigner: the qubit operator built for a word of ladder operators acts like it. *)
From Coq Require Import Reals String List Arith Lia Bool Lra Permutation Sorted ZArith.
From Verif Require Import CBase Result Bits Spec OpSpec SQSpec GateModel ComputerModel SafeProofs CircuitModel PauliProofs OperatorModel OperatorProofs OrderProofs PauliIndep SQModel SQPhase SQProofs.
Import ListNotations.
Local Open Scope C_scope.

(** ---- coefficients: Gaussian integers over 2^k ---- *)
Definition dy (k : nat) (c : C) : Prop := exists a b : Z, c = mkC (IZR a / 2 ^ k) (IZR b / 2 ^ k).
Lemma pow2_nz k : (2 ^ k <> 0)%R.
Proof. apply pow_nonzero; lra. Qed.
Lemma dy_add k a b : dy k a -> dy k b -> dy k (a + b).
Proof.
  intros (x & y & ->) (z & w & ->). exists (x + z)%Z, (y + w)%Z. rewrite !plus_IZR. apply C_ext; cbn; field; apply pow2_nz.
Qed.
Lemma dy_mul j k a b : dy j a -> dy k b -> dy (j + k) (a * b).
Proof.
  intros (x & y & ->) (z & w & ->). exists (x * z - y * w)%Z, (x * w + y * z)%Z. rewrite minus_IZR, plus_IZR, !mult_IZR, pow_add.
  apply C_ext; cbn [Re Im Cmul]; field; split; apply pow2_nz.
Qed.
Lemma dy_C1 : dy 0 C1. Proof. exists 1%Z, 0%Z. apply C_ext; cbn; lra. Qed.
Lemma dy_C0 k : dy k C0. Proof. exists 0%Z, 0%Z. apply C_ext; cbn; field; apply pow2_nz. Qed.
Lemma dy_Ci : dy 0 Ci. Proof. exists 0%Z, 1%Z. apply C_ext; cbn; lra. Qed.
Lemma dy_neg k a : dy k a -> dy k (- a).
Proof. intros (x & y & ->). exists (- x)%Z, (- y)%Z. rewrite !opp_IZR. apply C_ext; cbn; field; apply pow2_nz. Qed.
Lemma pow2_bound k : (k <= 39)%nat -> (2 ^ k <= 549755813888)%R.
Proof.
  intros H. replace 549755813888%R with (2 ^ 39)%R by (cbn; lra). apply Rle_pow; [lra|exact H].
Qed.
Lemma dy_small k c : (k <= 39)%nat -> dy k c -> (Cabs c <= 1e-12)%R -> c = C0.
Proof.
  intros Hk (a & b & ->) HA. pose proof (pow2_bound k Hk) as HB. assert (HP : (0 < 2 ^ k)%R) by (apply pow_lt; lra).
  assert (HS : (Cnorm2 (mkC (IZR a / 2 ^ k) (IZR b / 2 ^ k)) <= 1e-12 * 1e-12)%R).
  { rewrite <- Cabs_sq. pose proof (Cabs_nonneg (mkC (IZR a / 2 ^ k) (IZR b / 2 ^ k))). apply Rmult_le_compat; assumption. }
  unfold Cnorm2 in HS; cbn [Re Im] in HS.
  assert (HZ : (IZR a * IZR a + IZR b * IZR b < 1)%R).
  { replace (IZR a / 2 ^ k * (IZR a / 2 ^ k) + IZR b / 2 ^ k * (IZR b / 2 ^ k))%R with ((IZR a * IZR a + IZR b * IZR b) / (2 ^ k * 2 ^ k))%R in HS by (field; lra).
    apply (Rmult_le_compat_r (2 ^ k * 2 ^ k)) in HS; [|nra].
    replace ((IZR a * IZR a + IZR b * IZR b) / (2 ^ k * 2 ^ k) * (2 ^ k * 2 ^ k))%R with (IZR a * IZR a + IZR b * IZR b)%R in HS by (field; lra).
    assert (2 ^ k * 2 ^ k <= 549755813888 * 549755813888)%R by (apply Rmult_le_compat; lra). lra. }
  rewrite <- !mult_IZR, <- plus_IZR in HZ. apply lt_IZR in HZ. assert (a = 0)%Z by nia. assert (b = 0)%Z by nia. subst.
  apply C_ext; cbn; unfold Rdiv; ring.
Qed.
Definition dyop (k : nat) (o : qop) : Prop := Forall (fun t => dy k (fst t)) o.
Lemma table_dy a b : dy 0 (fst (pauli_table a b)).
Proof.
  unfold pauli_table. repeat match goal with |- context [if ?x then _ else _] => destruct x; [first [exact dy_Ci|exact (dy_neg 0 _ dy_Ci)|exact dy_C1]|] end. apply dy_C0.
Qed.
Lemma canon_loop_dy l : forall first s c out c' out', canon_loop first s c out l = Ok (c', out') -> dy 0 c -> dy 0 c'.
Proof.
  induction l as [|g r IH]; intros first s c out c' out' E H.
  - cbn in E. congruence.
  - assert (HF : forall s1, (do out' <- (if (s1 =? "I")%string then Ok out else do p <- make_gate s1 (gtarget g) (gtarget g) 0; Ok (out ++ [p])%list);
        canon_loop true s1 c out' r) = Ok (c', out') -> dy 0 c').
    { intros s1. destruct (if (s1 =? "I")%string then _ else _) as [o|e]; cbn [bind]; [|discriminate]. intros E1. exact (IH _ _ _ _ _ _ E1 H). }
    cbn [canon_loop] in E. destruct r as [|h r']; [eapply HF, E|]. destruct (Nat.eqb _ _); [|eapply HF, E].
    pose proof (table_dy (if first then glabel g else s) (glabel h)) as HT. destruct (pauli_table _ _) as [d s']. cbn [fst] in HT.
    eapply IH; [exact E|]. exact (dy_mul 0 0 _ _ H HT).
Qed.
Lemma canon_dy gs c gs' : canonicalize_pauli_circuit gs = Ok (c, gs') -> dy 0 c.
Proof.
  unfold canonicalize_pauli_circuit. destruct gs as [|g r]; [intros E; assert (c = C1) by congruence; subst; apply dy_C1|].
  destruct (negb _); [discriminate|]. intros E. eapply canon_loop_dy; [exact E|apply dy_C1].
Qed.
Lemma canonical_order_dy k o : forall o', canonical_order o = Ok o' -> dyop k o -> dyop k o'.
Proof.
  induction o as [|[c gs] r IH]; intros o' E H; cbn [canonical_order] in E.
  - assert (o' = []) by congruence. subst. constructor.
  - destruct (canonicalize_pauli_circuit gs) as [[d gs']|] eqn:E1; cbn [bind] in E; [|discriminate].
    destruct (canonical_order r) as [r'|] eqn:E2; cbn [bind fst snd] in E; [|discriminate].
    assert (o' = (c * d, gs') :: r') by congruence. subst o'. constructor; [|apply IH; [reflexivity|exact (Forall_inv_tail H)]].
    cbn [fst]. pose proof (dy_mul k 0 _ _ (Forall_inv H) (canon_dy _ _ _ E1)) as HM. rewrite Nat.add_0_r in HM. exact HM.
Qed.
Lemma accumulate_dy k key v m : dy k v -> Forall (fun kv => dy k (snd kv)) m -> Forall (fun kv => dy k (snd kv)) (map_accumulate key v m).
Proof.
  intros Hv. induction m as [|[k' v'] r IH]; intros H; cbn [map_accumulate]; [repeat constructor; exact Hv|].
  destruct (circuit_ltb key k'); [constructor; [exact Hv|exact H]|]. destruct (circuit_ltb k' key).
  - constructor; [exact (Forall_inv H)|]. apply IH, (Forall_inv_tail H).
  - constructor; [|exact (Forall_inv_tail H)]. cbn [snd]. apply dy_add; [exact (Forall_inv H)|exact Hv].
Qed.
Lemma unique_dy k o : forall m, dyop k o -> Forall (fun kv => dy k (snd kv)) m ->
  Forall (fun kv => dy k (snd kv)) (fold_left (fun m t => map_accumulate (snd t) (fst t) m) o m).
Proof.
  induction o as [|t o IH]; intros m H Hm; [exact Hm|]. cbn [fold_left]. apply IH; [exact (Forall_inv_tail H)|]. apply accumulate_dy; [exact (Forall_inv H)|exact Hm].
Qed.
(** with such coefficients simplify is exact *)
Lemma simplify_exact k o : (k <= 39)%nat -> pauli_op o -> dyop k o -> exists o', op_simplify true o = Ok o' /\ canonical_op o' /\ dyop k o' /\
  (forall n, in_reg n o -> in_reg n o') /\ forall psi, wop o psi == wop o' psi.
Proof.
  intros Hk H HD. destruct (simplify_spec true o H) as (kept & dr & E & HC & _ & _ & _ & _ & HR & _). exists kept. split; [exact E|].
  apply Forall_app in HC. split; [apply HC|].
  destruct (canonical_order_spec o H) as (o' & E1 & HC1 & _ & HW & _). pose proof (canonical_order_dy k o o' E1 HD) as HD1.
  unfold op_simplify in E. rewrite E1 in E. cbn [bind] in E. fold swapt in E.
  destruct (unique_spec_gen o' HC1 [] (Forall_nil _) (SSorted_nil _)) as (HK & HS & HA).
  pose proof (unique_dy k o' [] HD1 (Forall_nil _)) as HU. fold (unique_terms o') in HK, HS, HA, HU. set (m := unique_terms o') in *. cbv zeta in E.
  set (f := fun kv : list gate * C => Rltb 1e-12 (Cabs (snd kv))) in E.
  assert (EK : kept = map swapt (filter f m)) by congruence. split; [|split; [exact HR|]].
  - rewrite EK. apply Forall_map, Forall_forall. intros kv HI. apply filter_In in HI. rewrite Forall_forall in HU. exact (HU kv (proj1 HI)).
  - intros psi J. rewrite (HW psi J). assert (HM : wop o' psi J = wop (map swapt m) psi J).
    { rewrite (HA psi J). unfold sadd. cbn [map]. rewrite (wop_nil psi J). unfold szero. ring. }
    rewrite HM, (wop_filter_split f m psi J), EK. unfold sadd.
    assert (HZ : wop (map swapt (filter (fun x => negb (f x)) m)) psi J = C0).
    { unfold wop. rewrite Csum_map. apply Csum_zero. intros kv HI. apply filter_In in HI. destruct HI as [HI HF]. unfold f in HF.
      destruct (Rltb_spec 1e-12 (Cabs (snd kv))) as [|HL]; [discriminate|]. rewrite Forall_forall in HU.
      unfold swapt; cbn [fst snd]. rewrite (dy_small k (snd kv) Hk (HU kv HI)) by (apply Rnot_lt_le; exact HL). ring. }
    rewrite HZ. ring.
Qed.
Lemma raw_product_dy j k l r : dyop j l -> dyop k r -> dyop (j + k) (raw_product l r).
Proof.
  intros Hl Hr. apply Forall_forall. intros t Ht. unfold raw_product in Ht. apply in_flat_map in Ht. destruct Ht as (tl & H1 & H2).
  apply in_map_iff in H2. destruct H2 as (tr & <- & H2). cbn [fst].
  exact (dy_mul j k _ _ (proj1 (Forall_forall _ _) Hl tl H1) (proj1 (Forall_forall _ _) Hr tr H2)).
Qed.
Lemma product_exact j k l r : (j + k <= 39)%nat -> pauli_op l -> pauli_op r -> dyop j l -> dyop k r ->
  exists p, operator_product l r true true = Ok p /\ canonical_op p /\ dyop (j + k) p /\
    (NoDup (map snd p) /\ Forall (fun t => 1e-12 < Cabs (fst t))%R p) /\
    (forall n, in_reg n l -> in_reg n r -> in_reg n p) /\ forall psi, wop p psi == wop l (wop r psi).
Proof.
  intros Hk Hl Hr Dl Dr. destruct (simplify_exact j l ltac:(lia) Hl Dl) as (l' & E1 & HC1 & HD1 & HR1 & HW1).
  unfold operator_product. rewrite E1. cbn [bind]. cbv zeta.
  destruct (simplify_exact (j + k) (raw_product l' r) Hk (raw_product_pauli l' r (canonical_pauli_op _ HC1) Hr) (raw_product_dy j k l' r HD1 Dr)) as (p & E2 & HC2 & HD2 & HR2 & HW2).
  exists p. split; [exact E2|]. split; [exact HC2|]. split; [exact HD2|]. split.
  { destruct (product_word l r true true Hl Hr) as (p' & d1 & d2 & EP & _ & _ & _ & _ & _ & _ & _ & HM & _).
    unfold operator_product in EP. rewrite E1 in EP. cbn [bind] in EP. cbv zeta in EP. assert (p' = p) by congruence. subst p'. destruct (HM eq_refl) as (A & _ & B). auto. }
  split.
  - intros n H1 H2. apply HR2, raw_product_reg; auto.
  - intros psi J. rewrite <- (HW2 psi J), (wop_product l' r psi J), <- (HW1 (wop r psi) J). reflexivity.
Qed.

(** ---- one ladder operator ---- *)
Definition plad (qe d : bool) (p : nat) (psi : state) : state := fun I =>
  if Bool.eqb (bit I p) d then (if qe then C1 else sgn (odd_below I p)) * psi (upd I p (negb d)) else C0.
Lemma plad_lad d p psi : plad false d p psi = lad d p psi. Proof. reflexivity. Qed.
Lemma zstring_act p : forall psi I, wact (map gZ (seq 0 p)) psi I = sgn (odd_below I p) * psi I.
Proof.
  induction p as [|p IH]; intros psi I; [cbn; ring|]. rewrite seq_S, map_app, wact_app. cbn [map plus]. rewrite IH.
  unfold wact; cbn [fold_right]. unfold gate_act; cbn [gtarget gcontrol gmat gZ]. rewrite Nat.eqb_refl. unfold act1.
  cbn [odd_below]. rewrite sgn_xor. destruct (bit I p) eqn:E; [rewrite (upd_id' I p true E)|rewrite (upd_id' I p false E)]; cbn [b2n]; unfold sgn; destruct (if odd_below I p then (- C1) else C1) as [u v], (psi (upd I p false)), (psi (upd I p true)), (psi I); apply C_ext; cbn; lra.
Qed.
Lemma mapM_Ok {A B} (f : A -> res B) (g : A -> B) l : (forall x, In x l -> f x = Ok (g x)) -> mapM f l = Ok (map g l).
Proof.
  induction l as [|x l IH]; intros H; [reflexivity|]. cbn [mapM map]. rewrite H by (left; reflexivity). cbn [bind].
  rewrite IH by (intros; apply H; right; assumption). reflexivity.
Qed.
Lemma F1_intro {A} (P : A -> Prop) a : P a -> Forall P [a].
Proof. intros H; constructor; [exact H|constructor]. Qed.
Lemma F2_intro {A} (P : A -> Prop) a b : P a -> P b -> Forall P [a; b].
Proof. intros H1 H2; constructor; [exact H1|apply F1_intro, H2]. Qed.
Lemma jw_ladder_spec d qe p : exists o, jw_ladder d qe p = Ok o /\ pauli_op o /\ dyop 1 o /\ o <> [] /\
  (forall n, (p < n)%nat -> in_reg n o) /\ forall psi, wop o psi == plad qe d p psi.
Proof.
  unfold jw_ladder.
  assert (HZ : (if qe then Ok [] else mapM (fun k => make_gate "Z" k k 0) (seq 0 p)) = Ok (if qe then [] else map gZ (seq 0 p))).
  { destruct qe; [reflexivity|]. apply mapM_Ok. intros k _. exact (proj2 (gZ_pauli k)). }
  rewrite HZ. cbn [bind]. set (zs := if qe then [] else map gZ (seq 0 p)).
  change (make_gate "X" p p 0) with (make_gate (glabel (gX p)) (gtarget (gX p)) (gtarget (gX p)) 0). rewrite (proj2 (gX_pauli p)). cbn [bind].
  change (make_gate "Y" p p 0) with (make_gate (glabel (gY p)) (gtarget (gY p)) (gtarget (gY p)) 0). rewrite (proj2 (gY_pauli p)). cbn [bind].
  assert (HP : Forall pauli_gate zs).
  { unfold zs. destruct qe; [constructor|]. apply Forall_map, Forall_forall. intros k _. apply gZ_pauli. }
  eexists. split; [reflexivity|]. unfold op_add_term. cbn [app]. split; [|split; [|split; [discriminate|split]]].
  - apply F2_intro; cbn [snd]; apply Forall_app; (split; [exact HP|]); apply F1_intro; [apply gX_pauli|apply gY_pauli].
  - apply F2_intro; cbn [fst].
    + exists 1%Z, 0%Z. apply C_ext; cbn; lra.
    + destruct d; [exists 0%Z, (-1)%Z|exists 0%Z, 1%Z]; apply C_ext; cbn; lra.
  - intros n Hn. assert (HR : Forall (fun g => gtarget g < n)%nat zs).
    { unfold zs. destruct qe; [constructor|]. apply Forall_map, Forall_forall. intros k Hk. apply in_seq in Hk. cbn. lia. }
    apply F2_intro; cbn [snd]; apply Forall_app; (split; [exact HR|]); apply F1_intro; cbn; exact Hn.
  - intros psi I. unfold wop. rewrite !Csum_cons. change (Csum _ []) with C0. cbn [fst snd]. rewrite !wact_app.
    assert (HA : forall phi, wact zs phi I = (if qe then C1 else sgn (odd_below I p)) * phi I).
    { intros phi. unfold zs. destruct qe; [cbn; ring|apply zstring_act]. }
    rewrite !HA. unfold wact; cbn [fold_right]. unfold gate_act; cbn [gtarget gcontrol gmat gX gY]. rewrite Nat.eqb_refl. unfold act1, plad.
    destruct (bit I p) eqn:E, d; cbn [b2n Bool.eqb negb]; unfold m_X, m_Y; cbn [Nat.eqb andb];
      destruct (if qe then C1 else sgn (odd_below I p)) as [u v], (psi (upd I p false)) as [u0 v0], (psi (upd I p true)) as [u1 v1]; apply C_ext; cbn; lra.
Qed.

(** ---- words of ladder operators ---- *)
Definition lword (qe : bool) (w : list (bool * nat)) (psi : state) : state := fold_right (fun s => plad qe (fst s) (snd s)) psi w.
Lemma plad_ext qe d p a b : a == b -> plad qe d p a == plad qe d p b.
Proof. intros H I. unfold plad. rewrite H. reflexivity. Qed.
Lemma plad_scale qe d p c psi : plad qe d p (sscale c psi) == sscale c (plad qe d p psi).
Proof. intros I. unfold plad, sscale. destruct (Bool.eqb _ _), qe; ring. Qed.
Lemma lword_ext qe w a b : a == b -> lword qe w a == lword qe w b.
Proof. intros H. induction w as [|s w IH]; [exact H|]. apply plad_ext, IH. Qed.
Lemma lword_scale qe w c psi : lword qe w (sscale c psi) == sscale c (lword qe w psi).
Proof. induction w as [|s w IH]; [apply seq_refl|]. cbn. eapply seq_trans; [apply plad_ext, IH|apply plad_scale]. Qed.
Lemma lword_app qe a b psi : lword qe (a ++ b) psi = lword qe a (lword qe b psi).
Proof. unfold lword. apply fold_right_app. Qed.
Definition nonzero (qe : bool) (w : list (bool * nat)) : Prop := exists psi I, lword qe w psi I <> C0.
Lemma nonzero_prefix qe a b : nonzero qe (a ++ b) -> nonzero qe a.
Proof. intros (psi & I & H). rewrite lword_app in H. exists (lword qe b psi), I. exact H. Qed.
(** the operator [holder] stands for the word [w] *)
Record jw_inv (qe : bool) (w : list (bool * nat)) (h : qop) : Prop := {
  ji_pauli : pauli_op h; ji_dy : dyop (length w) h; ji_nil : w = [] -> h = [];
  ji_reg : forall n, Forall (fun s => snd s < n)%nat w -> in_reg n h;
  ji_act : w <> [] -> forall psi, wop h psi == lword qe w psi;
  ji_min : (2 <= length w)%nat -> canonical_op h /\ NoDup (map snd h) /\ Forall (fun t => 1e-12 < Cabs (fst t))%R h }.
(** the holder of a word that is zero as an operator is empty *)
Lemma jw_zero_empty qe w h : jw_inv qe w h -> (2 <= length w)%nat -> ~ nonzero qe w -> h = [].
Proof.
  intros HI HL HN. destruct (ji_min _ _ _ HI HL) as (HC & HD & HB). assert (Hw : w <> []) by (intros ->; cbn in HL; lia).
  assert (HV : vanishes h).
  { intros psi I. rewrite <- (wop_op h psi (canonical_distinct h HC) I), (ji_act _ _ _ HI Hw psi I). unfold szero.
    destruct (Ceq_dec (lword qe w psi I) C0) as [E|N]; [exact E|]. exfalso. apply HN. exists psi, I. exact N. }
  pose proof (vanish_coeffs h HC HD HV) as HZ. destruct h as [|t h]; [reflexivity|]. exfalso. pose proof (Forall_inv HZ) as E. pose proof (Forall_inv HB) as HB1. cbn beta in *.
  rewrite E, Cabs_C0 in HB1. lra.
Qed.
Lemma jw_inv_nil qe : jw_inv qe [] [].
Proof. constructor; [constructor|constructor|reflexivity|intros; constructor|congruence|cbn; lia]. Qed.
Definition jw_step (qe d : bool) (p : nat) (holder : qop) : res qop :=
  do temp <- jw_ladder d qe p;
  if Nat.eqb (length holder) 0 then Ok (op_add_op holder temp) else operator_product holder temp true true.
Lemma jw_step_spec qe d p w h : jw_inv qe w h -> (length w < 39)%nat -> (w <> [] -> nonzero qe w) ->
  exists h', jw_step qe d p h = Ok h' /\ jw_inv qe (w ++ [(d, p)]) h'.
Proof.
  intros HI HL HN. unfold jw_step. destruct (jw_ladder_spec d qe p) as (o & E & HP & HD & Ho & HR & HW). rewrite E. cbn [bind].
  destruct w as [|s w].
  - rewrite (ji_nil _ _ _ HI eq_refl). cbn [length Nat.eqb]. exists o. split; [reflexivity|]. constructor; auto.
    + intros HX. discriminate.
    + intros n HF. apply HR. exact (Forall_inv HF).
    + cbn. lia.
  - set (w' := s :: w) in *. assert (Hw : w' <> []) by discriminate. destruct (HN Hw) as (phi & I0 & HX).
    assert (Hh : h <> []).
    { intros ->. apply HX. rewrite <- (ji_act _ _ _ HI Hw phi I0). reflexivity. }
    destruct (Nat.eqb_spec (length h) 0) as [E0|_]; [destruct h; [congruence|discriminate]|].
    destruct (product_exact (length w') 1 h o ltac:(lia) (ji_pauli _ _ _ HI) HP (ji_dy _ _ _ HI) HD) as (q & EQ & HC & HDq & HMq & HRq & HWq).
    exists q. split; [exact EQ|]. constructor.
    + apply canonical_pauli_op, HC.
    + rewrite app_length. exact HDq.
    + intros HX'. destruct w'; discriminate.
    + intros n HF. apply Forall_app in HF. destruct HF as [H1 H2]. apply HRq; [apply (ji_reg _ _ _ HI), H1|apply HR; exact (Forall_inv H2)].
    + intros _ psi J. rewrite (HWq psi J), (wop_ext h _ _ (HW psi) J), (ji_act _ _ _ HI Hw _ J). rewrite lword_app. reflexivity.
    + intros _. split; [exact HC|exact HMq].
Qed.
Lemma jw_helper_spec qe d l : forall w h, jw_inv qe w h -> (length w + length l <= 39)%nat ->
  (forall u x v, (w ++ map (pair d) l)%list = (u ++ x :: v)%list -> u <> [] -> nonzero qe u) ->
  exists h', jw_helper h l d qe = Ok h' /\ jw_inv qe (w ++ map (pair d) l) h'.
Proof.
  induction l as [|p l IH]; intros w h HI HL HN.
  - exists h. split; [reflexivity|]. cbn [map]. rewrite app_nil_r. exact HI.
  - unfold jw_helper. cbn [foreach]. change (bind (jw_ladder d qe p) _) with (jw_step qe d p h).
    cbn [length] in HL. destruct (jw_step_spec qe d p w h HI ltac:(lia)) as (h1 & E1 & HI1).
    { intros Hw. exact (HN w (d, p) (map (pair d) l) eq_refl Hw). }
    rewrite E1. cbn [bind]. destruct (IH (w ++ [(d, p)])%list h1 HI1) as (h2 & E2 & HI2).
    + rewrite app_length. cbn [length]. lia.
    + intros u x v E. apply (HN u x v). rewrite <- E, <- app_assoc. reflexivity.
    + exists h2. split; [exact E2|]. cbn [map]. rewrite <- app_assoc in HI2. exact HI2.
Qed.
Definition term_word (cre ann : list nat) : list (bool * nat) := (map (pair true) cre ++ map (pair false) ann)%list.
(** all proper prefixes of the word are non-zero operators *)
Definition term_ok (qe : bool) (cre ann : list nat) : Prop :=
  (length cre + length ann <= 39)%nat /\
  forall u x v, term_word cre ann = (u ++ x :: v)%list -> u <> [] -> nonzero qe u.
Lemma jw_word_spec qe cre ann : term_ok qe cre ann ->
  exists h, (do t <- jw_helper [] cre true qe; jw_helper t ann false qe) = Ok h /\ jw_inv qe (term_word cre ann) h.
Proof.
  intros [HL HN]. destruct (jw_helper_spec qe true cre [] []) as (h1 & E1 & HI1).
  - apply jw_inv_nil.
  - cbn [length]. lia.
  - intros u x v E Hu. apply (HN u x (v ++ map (pair false) ann)%list); [|exact Hu]. unfold term_word. cbn [app] in E. rewrite E, <- app_assoc. reflexivity.
  - rewrite E1. cbn [bind]. cbn [app] in HI1. destruct (jw_helper_spec qe false ann _ h1 HI1) as (h2 & E2 & HI2).
    + rewrite map_length. lia.
    + exact HN.
    + exists h2. split; [exact E2|exact HI2].
Qed.
Definition ptact (qe : bool) (t : fterm) (psi : state) : state := lword qe (term_word (fcre t) (fann t)) psi.
Lemma jw_term_spec qe t qo : pauli_op qo -> term_ok qe (fcre t) (fann t) ->
  exists qo', jw_term qe t qo = Ok qo' /\ pauli_op qo' /\
    (forall n, in_reg n qo -> Forall (fun p => p < n)%nat (fcre t) -> Forall (fun p => p < n)%nat (fann t) -> in_reg n qo') /\
    forall psi I, wop qo' psi I = wop qo psi I + fcoef t * ptact qe t psi I.
Proof.
  intros HP HT. unfold jw_term. destruct (andb _ _) eqn:E.
  - apply andb_true_iff in E. destruct E as [E1 E2]. apply Nat.eqb_eq in E1, E2. apply length_zero_iff_nil in E1, E2.
    eexists. split; [reflexivity|]. unfold op_add_op, op_add_term. cbn [app]. split; [apply Forall_app; split; [exact HP|repeat constructor]|]. split.
    + intros n Hn _ _. apply Forall_app; split; [exact Hn|repeat constructor].
    + intros psi I. rewrite (wop_app _ _ psi I). unfold sadd. f_equal. unfold ptact. rewrite E1, E2. unfold wop. rewrite Csum_cons. change (Csum _ []) with C0.
      cbn [fst snd wact fold_right]. cbn [term_word map app lword fold_right]. ring.
  - destruct (jw_word_spec qe (fcre t) (fann t) HT) as (h & EH & HI).
    destruct (jw_helper [] (fcre t) true qe) as [h1|e] eqn:E1; cbn [bind] in *; [|discriminate]. rewrite EH. cbn [bind].
    eexists. split; [reflexivity|]. unfold op_add_op. split; [|split].
    + apply Forall_app; split; [exact HP|]. unfold op_mult_coeffs. apply Forall_map. cbn [snd]. exact (ji_pauli _ _ _ HI).
    + intros n Hn H1 H2. apply Forall_app; split; [exact Hn|]. unfold op_mult_coeffs. apply Forall_map. cbn [snd]. apply (ji_reg _ _ _ HI).
      unfold term_word. apply Forall_app; split; apply Forall_map; assumption.
    + intros psi I. rewrite (wop_app _ _ psi I). unfold sadd. f_equal. rewrite (wop_mult h (fcoef t) psi I). unfold sscale. f_equal.
      unfold ptact. apply (ji_act _ _ _ HI). intros EW. apply app_eq_nil in EW. destruct EW as [EA EB]. apply map_eq_nil in EA, EB. rewrite EA, EB in E. discriminate.
Qed.
Definition psum (qe : bool) (o : list fterm) (psi : state) : state := fun I => Csum (fun t => fcoef t * ptact qe t psi I) o.
Lemma jw_terms_spec qe o : forall qo, pauli_op qo -> Forall (fun t => term_ok qe (fcre t) (fann t)) o ->
  exists qo', foreach o (jw_term qe) qo = Ok qo' /\ pauli_op qo' /\
    (forall n, in_reg n qo -> Forall (fun t => Forall (fun p => p < n)%nat (fcre t) /\ Forall (fun p => p < n)%nat (fann t)) o -> in_reg n qo') /\
    forall psi I, wop qo' psi I = wop qo psi I + psum qe o psi I.
Proof.
  induction o as [|t o IH]; intros qo HP HT; cbn [foreach].
  - exists qo. split; [reflexivity|]. split; [exact HP|]. split; [auto|]. intros psi I. unfold psum. cbn. ring.
  - destruct (jw_term_spec qe t qo HP (Forall_inv HT)) as (q1 & E1 & HP1 & HR1 & HW1). rewrite E1. cbn [bind].
    destruct (IH q1 HP1 (Forall_inv_tail HT)) as (q2 & E2 & HP2 & HR2 & HW2). exists q2. split; [exact E2|]. split; [exact HP2|]. split.
    + intros n Hn HF. apply HR2; [|exact (Forall_inv_tail HF)]. destruct (Forall_inv HF) as [HA HB]. apply HR1; assumption.
    + intros psi I. rewrite HW2, HW1. unfold psum. rewrite Csum_cons. ring.
Qed.
Lemma lword_cre qe l w psi : lword qe (map (pair true) l ++ w) psi = fold_right (plad qe true) (lword qe w psi) l.
Proof. rewrite lword_app. induction l as [|p l IH]; [reflexivity|]. cbn. rewrite <- IH. reflexivity. Qed.
Lemma lword_ann qe l psi : lword qe (map (pair false) l) psi = fold_right (plad qe false) psi l.
Proof. induction l as [|p l IH]; [reflexivity|]. cbn. rewrite <- IH. reflexivity. Qed.
Lemma psum_fermi o psi I : psum false o psi I = fermi_act o psi I.
Proof.
  unfold psum. rewrite fermi_word. apply Csum_ext. intros t _. unfold ptact, term_word. rewrite lword_cre, lword_ann. reflexivity.
Qed.
Lemma psum_qexc o psi I : psum true o psi I = qexc_act o psi I.
Proof.
  unfold psum, qexc_act. apply Csum_ext. intros t _. f_equal. unfold ptact, term_word. rewrite lword_cre, lword_ann. unfold qladder_act.
  assert (HA : forall l phi phi', phi == phi' -> fold_right (plad true false) phi l == fold_right lower phi' l).
  { intros l phi phi' H. induction l as [|p l IH]; [exact H|]. cbn [fold_right]. intros J. unfold plad, lower. rewrite IH. destruct (bit J p); cbn [Bool.eqb negb]; [reflexivity|apply Cmul_1_l]. }
  assert (HC : forall l phi phi', phi == phi' -> fold_right (plad true true) phi l == fold_right raise phi' l).
  { intros l phi phi' H. induction l as [|p l IH]; [exact H|]. cbn [fold_right]. intros J. unfold plad, raise. rewrite IH. destruct (bit J p); cbn [Bool.eqb negb]; [apply Cmul_1_l|reflexivity]. }
  apply HC, HA, seq_refl.
Qed.
(** main fact *)
Lemma jw_transform_spec srt qe o : legal_sort srt ->
  (forall kept, sq_simplify srt o = Ok kept -> Forall (fun t => term_ok qe (fcre t) (fann t)) kept) ->
  exists kept fdropped q dropped, jw_transform srt qe o = Ok (kept, q) /\
    sq_simplify srt o = Ok kept /\ fnegligible fdropped /\ (forall psi, fermi_act o psi == sadd (fermi_act kept psi) (fermi_act fdropped psi)) /\
    canonical_op q /\ NoDup (map snd q) /\ Forall (fun t => 1e-12 < Cabs (fst t))%R q /\ negligible dropped /\
    (forall n, Forall (fun t => Forall (fun p => p < n)%nat (fcre t) /\ Forall (fun p => p < n)%nat (fann t)) o -> in_reg n q) /\
    forall psi, psum qe kept psi == sadd (op_act q psi) (op_act dropped psi).
Proof.
  intros HS HT. destruct (sq_simplify_spec srt o HS) as (kept & fd & E & HC & HN & HB & HD & HI & HW). specialize (HT kept E).
  unfold jw_transform. rewrite E. cbn [bind]. destruct (jw_terms_spec qe kept [] (Forall_nil _) HT) as (qo & E1 & HP & HR & HW1).
  rewrite E1. cbn [bind]. destruct (simplify_small true qo HP) as (q & dr & E2 & HC2 & HN2 & HCd & HNd & HB2 & _ & _ & HR2 & HW2).
  rewrite E2. cbn [bind]. exists kept, fd, q, dr. split; [reflexivity|]. split; [reflexivity|]. split.
  { split; [exact HD|]. rewrite map_app in HN. eapply NoDup_app_r, HN. }
  split; [exact HW|]. split; [exact HC2|]. split; [exact HN2|]. split; [auto|]. split; [exact HNd|]. split.
  - intros n Hn. apply HR2, HR; [constructor|]. apply Forall_forall. intros t Ht. destruct (HI t (in_or_app _ _ _ (or_introl Ht))) as (t0 & H0 & H1 & H2).
    rewrite Forall_forall in Hn. destruct (Hn t0 H0) as [HA HB']. split; (eapply Forall_perm; [symmetry; eassumption|assumption]).
  - intros psi I. unfold sadd. rewrite <- (wop_op q psi (canonical_distinct q HC2) I), <- (wop_op dr psi (canonical_distinct dr HCd) I).
    change (psum qe kept psi I = sadd (wop q psi) (wop dr psi) I). rewrite <- (HW2 psi I), HW1. rewrite (wop_nil psi I). unfold szero. ring.
Qed.

(** ---- words with distinct indices are non-zero ---- *)
Lemma plad_ket qe d p J : bit J p = negb d -> exists s, s * s = C1 /\ plad qe d p (ket J) == sscale s (ket (upd J p d)).
Proof.
  intros HB. exists (if qe then C1 else sgn (odd_below J p)). split; [destruct qe; [ring|apply sgn_sgn]|].
  intros I. unfold plad, sscale, ket. destruct (Nat.eqb_spec I (upd J p d)) as [->|N].
  - rewrite bit_upd_same, eqb_reflx, upd_upd, (upd_id' J p (negb d) HB), Nat.eqb_refl. rewrite odd_below_upd, Nat.ltb_irrefl. reflexivity.
  - destruct (Bool.eqb (bit I p) d) eqn:E; [|destruct qe; ring]. apply Bool.eqb_prop in E.
    destruct (Nat.eqb_spec (upd I p (negb d)) J) as [E2|_]; [|destruct qe; ring]. exfalso. apply N. rewrite <- E2, upd_upd, (upd_id' I p d E). reflexivity.
Qed.
Lemma plads_ket qe d l : forall J, NoDup l -> (forall p, In p l -> bit J p = negb d) ->
  exists s J', s * s = C1 /\ fold_right (plad qe d) (ket J) l == sscale s (ket J') /\
    forall q, bit J' q = if existsb (Nat.eqb q) l then d else bit J q.
Proof.
  induction l as [|p l IH]; intros J HN HB.
  - exists C1, J. split; [ring|]. split; [intros I; unfold sscale; cbn; ring|reflexivity].
  - inversion HN; subst. destruct (IH J H2) as (s & J' & Hs & HW & HJ); [intros; apply HB; right; assumption|].
    assert (HX : bit J' p = negb d).
    { rewrite HJ. destruct (existsb (Nat.eqb p) l) eqn:E; [|apply HB; left; reflexivity]. exfalso. apply existsb_exists in E. destruct E as (y & Hy & Ey).
      apply Nat.eqb_eq in Ey. subst y. contradiction. }
    destruct (plad_ket qe d p J' HX) as (s2 & Hs2 & HW2). exists (s * s2), (upd J' p d). split; [|split].
    + transitivity ((s * s) * (s2 * s2)); [ring|rewrite Hs, Hs2; ring].
    + cbn [fold_right]. eapply seq_trans; [apply plad_ext, HW|]. eapply seq_trans; [apply plad_scale|]. eapply seq_trans; [apply sscale_ext, HW2|]. apply sscale_sscale.
    + intros q. rewrite bit_upd, HJ. cbn [existsb]. destruct (Nat.eqb_spec q p); reflexivity.
Qed.
Lemma set_bits l : exists J, forall q, bit J q = existsb (Nat.eqb q) l.
Proof.
  induction l as [|p l (J & HJ)]; [exists 0%nat; intros q; unfold bit; apply Nat.bits_0|]. exists (upd J p true). intros q. rewrite bit_upd, HJ. cbn [existsb].
  destruct (Nat.eqb q p); reflexivity.
Qed.
Lemma ket_nonzero s J : s * s = C1 -> sscale s (ket J) J <> C0.
Proof.
  intros H. unfold sscale, ket. rewrite Nat.eqb_refl. intros E. assert (s = C0) by (rewrite <- E; ring). subst s. apply C1_neq_C0. rewrite <- H. ring.
Qed.
Lemma word_nonzero qe cre ann : NoDup cre -> NoDup ann -> nonzero qe (term_word cre ann).
Proof.
  intros HC HA. destruct (set_bits ann) as (J & HJ). destruct (plads_ket qe false ann J HA) as (s & J1 & Hs & HW & HJ1).
  { intros p Hp. rewrite HJ. apply existsb_exists. exists p. split; [exact Hp|apply Nat.eqb_refl]. }
  destruct (plads_ket qe true cre J1 HC) as (s2 & J2 & Hs2 & HW2 & _).
  { intros p Hp. rewrite HJ1, HJ. destruct (existsb (Nat.eqb p) ann); reflexivity. }
  exists (ket J), J2. unfold term_word. rewrite lword_cre, lword_ann.
  assert (HX : fold_right (plad qe true) (fold_right (plad qe false) (ket J) ann) cre == sscale (s * s2) (ket J2)).
  { assert (EC : forall phi, lword qe (map (pair true) cre) phi = fold_right (plad qe true) phi cre).
    { intros phi. pose proof (lword_cre qe cre [] phi) as E1. rewrite app_nil_r in E1. exact E1. }
    rewrite <- EC. eapply seq_trans; [apply lword_ext, HW|]. eapply seq_trans; [apply lword_scale|]. rewrite EC.
    eapply seq_trans; [apply sscale_ext, HW2|]. apply sscale_sscale. }
  rewrite (HX J2). apply ket_nonzero. transitivity ((s * s) * (s2 * s2)); [ring|rewrite Hs, Hs2; ring].
Qed.
Lemma distinct_term_ok qe cre ann : (length cre + length ann <= 39)%nat -> NoDup cre -> NoDup ann -> term_ok qe cre ann.
Proof.
  intros HL HC HA. split; [exact HL|]. intros u x v E _. apply (nonzero_prefix qe u (x :: v)). rewrite <- E. apply word_nonzero; assumption.
Qed.

(** ---- vanishing products ---- *)
Lemma plad_same qe d p psi : plad qe d p (plad qe d p psi) == szero.
Proof. intros I. unfold plad, szero. destruct (Bool.eqb (bit I p) d); [|reflexivity]. rewrite bit_upd_same. destruct d; cbn [negb Bool.eqb]; ring. Qed.
Lemma plad_zero qe d p : plad qe d p szero == szero.
Proof. intros I. unfold plad, szero. destruct (Bool.eqb _ _); ring. Qed.
Lemma lword_zero qe w : lword qe w szero == szero.
Proof. induction w as [|s w IH]; [apply seq_refl|]. cbn. eapply seq_trans; [apply plad_ext, IH|apply plad_zero]. Qed.
Lemma repeat_zero qe w d p : ~ nonzero qe (w ++ [(d, p); (d, p)]).
Proof.
  intros (psi & I & H). apply H. rewrite lword_app. cbn [lword fold_right fst snd].
  rewrite (lword_ext qe w _ szero (plad_same qe d p psi) I). apply lword_zero.
Qed.
Lemma descending_cons x l : descending (x :: l) -> (forall y, In y l -> (y <= x)%nat) /\ descending l.
Proof.
  intros H. split.
  - intros y Hy. apply (In_nth _ _ 0%nat) in Hy. destruct Hy as (k & Hk & <-). apply (H 0%nat (S k) 0%nat). cbn; lia.
  - intros i j d Hij. apply (H (S i) (S j) d). cbn; lia.
Qed.
Lemma descending_unique : forall a b, descending a -> descending b -> Permutation a b -> a = b.
Proof.
  induction a as [|x a IH]; intros b Ha Hb HP; [apply Permutation_nil in HP; auto|]. destruct b as [|y b]; [symmetry in HP; apply Permutation_nil in HP; discriminate|].
  destruct (descending_cons x a Ha) as [H1 H2], (descending_cons y b Hb) as [H3 H4].
  assert (E : x = y).
  { assert (In x (y :: b)) as [->|HI] by (apply (Permutation_in _ HP); left; reflexivity); [reflexivity|].
    assert (In y (x :: a)) as [->|HI'] by (apply (Permutation_in _ (Permutation_sym HP)); left; reflexivity); [reflexivity|].
    specialize (H1 y HI'). specialize (H3 x HI). lia. }
  subst y. f_equal. apply IH; auto. eapply Permutation_cons_inv, HP.
Qed.
(** descending list with one repeated index, the smallest: it ends with the pair *)
Lemma end_pair l' l q : descending l' -> Permutation l' (l ++ [q; q]) -> (forall x, In x l -> (q < x)%nat) -> NoDup l ->
  exists m, l' = (m ++ [q; q])%list /\ NoDup (m ++ [q]).
Proof.
  intros HD HP Hq HN.
  assert (HS : exists m, Permutation m l /\ descending m).
  { clear. induction l as [|x l (m & HP & HD)]; [exists []; split; [constructor|intros i j d H; cbn in H; lia]|].
    assert (HI : forall m, descending m -> exists m', Permutation m' (x :: m) /\ descending m').
    { clear. induction m as [|y m IH]; intros HD; [exists [x]; split; [reflexivity|intros i j d H; cbn in H; lia]|].
      destruct (descending_cons y m HD) as [H1 H2]. destruct (le_lt_dec y x) as [HL|HG].
      - exists (x :: y :: m). split; [reflexivity|]. intros i j d Hij. destruct i as [|i].
        + assert (HX : In (nth j (x :: y :: m) d) (x :: y :: m)) by (apply nth_In; lia). change (nth 0 (x :: y :: m) d) with x. set (z := nth j (x :: y :: m) d) in *. clearbody z. destruct HX as [HX|[HX|HI]]; [lia|lia|].
          specialize (H1 _ HI). lia.
        + destruct j as [|j]; [lia|]. apply (HD i j d). cbn in *; lia.
      - destruct (IH H2) as (m' & HP & HD'). exists (y :: m'). split; [rewrite HP; apply perm_swap|]. intros i j d Hij. destruct i as [|i].
        + destruct j as [|j]; [lia|]. cbn [nth]. assert (HX : In (nth j m' d) m') by (apply nth_In; cbn in Hij; lia).
          apply (Permutation_in _ HP) in HX. destruct HX as [<-|HI]; [lia|apply H1, HI].
        + destruct j as [|j]; [lia|]. apply (HD' i j d). cbn in *; lia. }
    destruct (HI m HD) as (m' & HP' & HD'). exists m'. split; [rewrite HP', HP; reflexivity|exact HD']. }
  destruct HS as (m & HPm & HDm). exists m. split.
  - apply descending_unique; [exact HD| |rewrite HP, HPm; reflexivity]. intros i j d Hij. rewrite app_length in Hij; cbn [length] in Hij.
    destruct (lt_dec j (length m)) as [Hj|Hj].
    + rewrite !app_nth1 by lia. apply HDm; lia.
    + rewrite (app_nth2 m _ d (n := j)) by lia. assert (EJ : nth (j - length m) [q; q] d = q).
      { destruct (j - length m)%nat as [|[|]] eqn:E; cbn; [reflexivity|reflexivity|lia]. }
      rewrite EJ. destruct (lt_dec i (length m)) as [Hi|Hi].
      * rewrite app_nth1 by lia. assert (HX : In (nth i m d) m) by (apply nth_In; lia). apply (Permutation_in _ HPm) in HX. specialize (Hq _ HX). lia.
      * rewrite app_nth2 by lia. destruct (i - length m)%nat as [|[|]] eqn:E; cbn; lia.
  - apply (Permutation_NoDup (l := q :: m)); [apply Permutation_cons_append|]. constructor; [|eapply Permutation_NoDup; [symmetry; exact HPm|exact HN]].
    intros HI. apply (Permutation_in _ HPm) in HI. specialize (Hq _ HI). lia.
Qed.
