(** taper_operator. *)
From Coq Require Import Reals String List Arith Lia Bool Lra Permutation Sorted ZArith.
From Verif Require Import CBase Result Bits Spec GateModel OpSpec ComputerModel SafeProofs GateProofs LibProofs CircuitModel PauliProofs OperatorModel OperatorProofs PauliIdx PauliIndep
  TaperModel TaperSpec TaperAlg TaperKernel TaperGS TaperAbel TaperPauli TaperSym TaperFind TaperUnit TaperConj TaperSector.
Import ListNotations.
Local Open Scope nat_scope.

(** ---- terms of an operator that commutes with a string ---- *)
Lemma circ_op_act g o psi : circ_act g (op_act o psi) == fun I => Csum (fun t => (fst t * circ_act g (circ_act (snd t) psi) I)%C) o.
Proof.
  induction o as [|t o IH].
  - eapply seq_trans; [|apply (circ_act_zero g)]. apply circ_act_ext. intros I; reflexivity.
  - eapply seq_trans with (circ_act g (sadd (sscale (fst t) (circ_act (snd t) psi)) (op_act o psi))).
    + apply circ_act_ext. intros I. reflexivity.
    + intros I. rewrite (circ_act_add g _ _ I). unfold sadd. rewrite (circ_act_scale g _ _ I), (IH I), Csum_cons. reflexivity.
Qed.
Lemma commute_terms g q : str g -> canonical_op q -> NoDup (map snd q) -> (forall psi, op_act q (circ_act g psi) == circ_act g (op_act q psi)) ->
  forall t, In t q -> fst t <> C0 -> anti_str g (snd t) = false.
Proof.
  intros Hg HC HN HQ t Ht Hn. set (f := fun t : C * list gate => anti_str g (snd t)).
  assert (HV : vanishes (filter f q)).
  { intros psi. apply (sscale_cancel (C1 + C1)%C); [intros E; apply (f_equal Re) in E; cbn in E; lra|]. intros I. unfold sscale, szero.
    pose proof (HQ (circ_act (rev g) psi) I) as E. rewrite (circ_op_act g q _ I) in E.
    assert (EG : forall phi, circ_act g (circ_act (rev g) phi) == phi). { intros phi. rewrite <- wact_rev. apply circ_wact_inv, Hg. }
    assert (HH : forall q', Forall (fun t => Forall pauli_gate (snd t)) q' -> (Csum (fun t => (fst t * circ_act g (circ_act (snd t) (circ_act (rev g) psi)) I)%C) q' = op_act q' psi I - (C1 + C1) * op_act (filter f q') psi I)%C).
    { induction q' as [|t' q' IH]; intros HF; [unfold op_act; cbn; ring|]. inversion HF; subst. rewrite Csum_cons, (IH H2). unfold op_act. rewrite Csum_cons. cbn [filter].
      rewrite (strings_commute g (snd t') Hg H1 _ I). unfold sscale. rewrite (circ_act_ext (snd t') _ _ (EG psi) I).
      unfold f at 2. destruct (anti_str g (snd t')) eqn:EA; unfold sgn; rewrite ?Csum_cons; fold (op_act (filter f q') psi I); ring. }
    rewrite HH in E by exact (canonical_pauli_op q HC). rewrite (op_act_ext q _ _ (EG psi) I) in E.
    transitivity (op_act q psi I - (op_act q psi I - (C1 + C1) * op_act (filter f q) psi I))%C; [ring|]. rewrite <- E. ring. }
  destruct (anti_str g (snd t)) eqn:EA; [|reflexivity]. exfalso. apply Hn.
  assert (HF : Forall (fun t => fst t = C0) (filter f q)).
  { apply vanish_coeffs; [|apply NoDup_map_filter, HN|exact HV]. apply Forall_forall. intros x Hx. apply filter_In in Hx. unfold canonical_op in HC. rewrite Forall_forall in HC. apply HC, Hx. }
  rewrite Forall_forall in HF. apply HF, filter_In. split; [exact Ht|exact EA].
Qed.
Lemma commute_op g q : str g -> pauli_op q -> (forall t, In t q -> anti_str g (snd t) = false) -> forall psi, op_act q (circ_act g psi) == circ_act g (op_act q psi).
Proof.
  intros Hg HP H psi I. rewrite (circ_op_act g q psi I). unfold op_act. apply Csum_ext. intros t Ht. unfold pauli_op in HP. rewrite Forall_forall in HP.
  rewrite (strings_commute g (snd t) Hg (HP t Ht) psi I). rewrite (H t Ht). unfold sscale, sgn. rewrite Cmul_1_l. reflexivity.
Qed.

(** ---- truncation respects P X = g P ---- *)
Definition sandwich (g : list gate) (x : gate) (t : C * list gate) : C * list gate :=
  match canonicalize_pauli_circuit (x :: snd t ++ g) with Ok p => ((fst t * Cconj (fst p))%C, snd p) | _ => t end.
Lemma sandwich_spec g x t : str g -> pauli_gate x -> canonical_pauli (snd t) ->
  canonical_pauli (snd (sandwich g x t)) /\ Cabs (fst (sandwich g x t)) = Cabs (fst t) /\
  (forall A, pauli_gate A -> anti (glabel A) (gtarget A) (snd (sandwich g x t)) = xorb (anti (glabel A) (gtarget A) [x]) (xorb (anti (glabel A) (gtarget A) (snd t)) (anti (glabel A) (gtarget A) g))) /\
  forall psi I, (fst (sandwich g x t) * circ_act (snd (sandwich g x t)) psi I = fst t * circ_act g (circ_act (snd t) (gate_act x psi)) I)%C.
Proof.
  intros Hg Hx Ht. assert (HP : Forall pauli_gate (x :: snd t ++ g)) by (constructor; [exact Hx|apply Forall_app; split; [apply Ht|apply Hg]]).
  destruct (canon_circuit _ HP) as (c & w & E & HC & HN & _ & HW). unfold sandwich. rewrite E. cbn [fst snd]. split; [exact HC|]. split; [rewrite Cabs_mul, Cabs_conj, (Cabs_norm1 c HN); ring|]. split.
  - intros A HA. apply (canon_sign A (x :: snd t ++ g) c w); [exact HA|exact HP|exact E|]. change (x :: snd t ++ g)%list with ([x] ++ (snd t ++ g))%list.
    apply sign_of_app; [apply sign_of_str; [exact HA|apply single_str, Hx]|]. apply sign_of_app; apply sign_of_str; try assumption. apply canonical_str, Ht.
  - intros psi I. pose proof (HW psi I) as H. unfold sscale in H. transitivity (fst t * (Cconj c * circ_act w psi I))%C; [ring|]. rewrite <- H. rewrite circ_act_cons, circ_act_app. reflexivity.
Qed.
Lemma truncated_swap g x k d : str g -> canonical_pauli g -> pauli_gate x -> canonical_op (k ++ d) -> NoDup (map snd (k ++ d)) -> big k -> Forall (fun t => Cabs (fst t) <= 1e-12)%R d ->
  (forall psi, op_act (k ++ d) (gate_act x psi) == circ_act g (op_act (k ++ d) psi)) -> forall psi, op_act k (gate_act x psi) == circ_act g (op_act k psi).
Proof.
  intros Sg Hg Hx HC HN HB HD HS.
  assert (HCt : forall t, In t (k ++ d) -> canonical_pauli (snd t)) by (apply Forall_forall, HC).
  set (B := map (sandwich g x) (k ++ d)).
  assert (HA : forall l, incl l (k ++ d) -> forall psi, op_act (map (sandwich g x) l) psi == circ_act g (op_act l (gate_act x psi))).
  { intros l Hl psi I. rewrite (circ_op_act g l _ I). unfold op_act. rewrite Csum_map. apply Csum_ext. intros t Ht. apply (sandwich_spec g x t Sg Hx (HCt t (Hl t Ht))). }
  assert (HBA : forall psi, op_act B psi == op_act (k ++ d) psi).
  { intros psi. eapply seq_trans; [apply HA, incl_refl|]. eapply seq_trans; [apply circ_act_ext, HS|]. apply g_inv, Hg. }
  assert (HND : forall l, incl l (k ++ d) -> NoDup (map snd l) -> NoDup (map snd (map (sandwich g x) l))).
  { induction l as [|t l IH]; intros Hl Hn; [constructor|]. cbn [map] in *. inversion Hn; subst. constructor; [|apply IH; [intros y Hy; apply Hl; right; exact Hy|assumption]].
    intros HI. apply H1. rewrite map_map in HI. apply in_map_iff in HI. destruct HI as (t' & E & Ht'). apply in_map_iff. exists t'. split; [|exact Ht'].
    assert (It : In t (k ++ d)) by (apply Hl; left; reflexivity). assert (It' : In t' (k ++ d)) by (apply Hl; right; exact Ht').
    apply canonical_from_signs; [apply HCt, It'|apply HCt, It|]. intros A PA.
    pose proof (proj1 (proj2 (proj2 (sandwich_spec g x t Sg Hx (HCt t It)))) A PA) as S1. pose proof (proj1 (proj2 (proj2 (sandwich_spec g x t' Sg Hx (HCt t' It')))) A PA) as S2.
    rewrite E, S1 in S2. destruct (anti (glabel A) (gtarget A) [x]), (anti (glabel A) (gtarget A) (snd t)), (anti (glabel A) (gtarget A) (snd t')), (anti (glabel A) (gtarget A) g); cbn in S2; congruence. }
  assert (CB : canonical_op B). { apply Forall_forall. intros b Hb. apply in_map_iff in Hb. destruct Hb as (t & <- & Ht). apply (sandwich_spec g x t Sg Hx (HCt t Ht)). }
  assert (Ik : incl k (k ++ d)) by (intros t Ht; apply in_or_app; left; exact Ht).
  assert (HIk : incl (map (sandwich g x) k) k).
  { intros b Hb. apply in_map_iff in Hb. destruct Hb as (t & <- & Ht). assert (Ea : Cabs (fst (sandwich g x t)) = Cabs (fst t)) by apply (sandwich_spec g x t Sg Hx (HCt t (Ik t Ht))).
    assert (Hbig : (1e-12 < Cabs (fst t))%R) by (unfold big in HB; rewrite Forall_forall in HB; apply HB, Ht).
    assert (HI : In (sandwich g x t) (k ++ d)).
    { apply (op_unique_in B (k ++ d)); [exact CB|exact HC|apply HND; [apply incl_refl|exact HN]|exact HN|exact HBA|apply in_map, Ik, Ht|]. intros E0. rewrite E0, Cabs_C0 in Ea. lra. }
    apply in_app_or in HI. destruct HI as [HI|HI]; [exact HI|]. rewrite Forall_forall in HD. specialize (HD _ HI). rewrite Ea in HD. lra. }
  assert (HNk : NoDup (map snd k)) by (rewrite map_app in HN; apply NoDup_app_l in HN; exact HN).
  assert (HPm : Permutation (map (sandwich g x) k) k).
  { apply NoDup_Permutation_bis; [|rewrite map_length; lia|exact HIk]. apply (NoDup_map_inv snd). apply HND; assumption. }
  intros psi. eapply seq_trans; [apply seq_sym, (g_inv g _ Hg)|]. apply circ_act_ext. eapply seq_trans; [apply seq_sym, HA, Ik|]. apply op_act_perm, HPm.
Qed.

(** ---- one term ---- *)
Lemma find_index tq : NoDup tq -> forall i, i < length tq -> filter (fun j => Nat.eqb (nth j tq 0) (nth i tq 0)) (seq 0 (length tq)) = [i].
Proof.
  intros HN i Hi. assert (H : forall m a, a + m = length tq -> filter (fun j => Nat.eqb (nth j tq 0) (nth i tq 0)) (seq a m) = if (a <=? i) then [i] else []).
  { induction m as [|m IH]; intros a Ha; cbn [seq filter].
    - destruct (Nat.leb_spec a i); [lia|reflexivity].
    - rewrite (IH (S a)) by lia. destruct (Nat.eqb_spec (nth a tq 0) (nth i tq 0)) as [E|N].
      + assert (a = i) by (apply (proj1 (NoDup_nth tq 0) HN); lia || exact E). subst a. destruct (Nat.leb_spec i i), (Nat.leb_spec (S i) i); try lia. reflexivity.
      + destruct (Nat.leb_spec a i), (Nat.leb_spec (S a) i); try lia; try reflexivity. exfalso. apply N. f_equal. lia. }
  rewrite (H (length tq) 0) by lia. reflexivity.
Qed.
Lemma memb_in x l : memb x l = true <-> In x l.
Proof. unfold memb. rewrite existsb_exists. split; [intros (y & Hy & E); apply Nat.eqb_eq in E; subst; exact Hy|intros H; exists x; split; [exact H|apply Nat.eqb_refl]]. Qed.
Definition rank (tq : list nat) (t : nat) : nat := t - length (filter (fun q => q <? t) tq).
Lemma ss_nodup l : StronglySorted gt l -> NoDup l.
Proof. induction 1 as [|a l HS IH HF]; constructor; [|exact IH]. intros HI. rewrite Forall_forall in HF. specialize (HF a HI). unfold gt in HF. lia. Qed.
Lemma taper_term tq s : StronglySorted gt tq -> length s = length tq -> Forall (fun z => z = 1%Z \/ z = (-1)%Z) s ->
  forall gs, Forall pauli_gate gs -> (forall g, In g gs -> In (gtarget g) tq -> glabel g = "X"%string) -> forall c acc,
  exists k gs', foreach gs (taper_gate tq s) (c, acc) = Ok ((c * k)%C, (acc ++ gs')%list) /\ Forall pauli_gate gs' /\
    map gtarget gs' = map (rank tq) (filter (fun t => negb (memb t tq)) (map gtarget gs)) /\
    forall phi, circ_act gs (sector tq s phi) == sscale k (sector tq s (circ_act gs' phi)).
Proof.
  intros HS HL HZ. induction gs as [|g gs IH]; intros HP HX c acc.
  - exists C1, []. cbn [foreach]. rewrite app_nil_r, Cmul_1_r. split; [reflexivity|]. split; [constructor|]. split; [reflexivity|]. intros phi. apply seq_sym, sscale_1.
  - inversion HP; subst. assert (HX' : forall g, In g gs -> In (gtarget g) tq -> glabel g = "X"%string) by (intros h Hh; apply HX; right; exact Hh).
    cbn [foreach map filter]. unfold taper_gate at 1. destruct (memb (gtarget g) tq) eqn:EM; cbn [negb].
    + apply memb_in in EM. assert (GX := HX g (or_introl eq_refl) EM). apply (In_nth _ _ 0) in EM. destruct EM as (i & Hi & Ei). rewrite <- Ei, (find_index tq (ss_nodup tq HS) i Hi). cbn [bind fst snd].
      destruct (IH H2 HX' (c * RtoC (IZR (nth i s 0%Z)))%C acc) as (k & gs' & E & HP' & HT & HA). exists (RtoC (IZR (nth i s 0%Z)) * k)%C, gs'. rewrite E. split; [f_equal; f_equal; ring|]. split; [exact HP'|]. split; [exact HT|].
      intros phi. rewrite circ_act_cons. assert (EG : gate_act g (sector tq s phi) == sscale (RtoC (IZR (nth i s 0%Z))) (sector tq s phi)).
      { intros J. rewrite (pauli_act g _ H1), GX, <- Ei. apply pauli_tapered; assumption. }
      eapply seq_trans; [apply circ_act_ext, EG|]. eapply seq_trans; [apply circ_act_scale|]. eapply seq_trans; [apply sscale_ext, HA|]. apply sscale_sscale.
    + set (t := gtarget g) in *. assert (Ht : ~ In t tq) by (intros H; apply memb_in in H; congruence).
      destruct (pauli_make (glabel g) (t - length (filter (fun q => q <? t) tq)) (proj1 H1)) as (g' & E' & HPg & HLg & HTg & _). rewrite E'. cbn [bind fst snd].
      destruct (IH H2 HX' c (acc ++ [g'])%list) as (k & gs' & E & HP' & HT & HA). exists k, (g' :: gs'). rewrite E. split; [rewrite <- app_assoc; reflexivity|]. split; [constructor; assumption|].
      cbn [map]. split; [rewrite HT, HTg; reflexivity|]. intros phi. rewrite !circ_act_cons.
      assert (EG : gate_act g (sector tq s phi) == sector tq s (gate_act g' phi)).
      { intros J. rewrite (pauli_act g _ H1). fold t. rewrite (pauli_other (glabel g) tq (proj1 H1) s t phi HS HL Ht J). apply sector_ext. intros K. rewrite (pauli_act g' _ HPg), HLg, HTg. reflexivity. }
      eapply seq_trans; [apply circ_act_ext, EG|]. apply HA.
Qed.
Lemma rank_mono tq a b : a < b -> ~ In a tq -> NoDup tq -> rank tq a < rank tq b.
Proof.
  intros Hab Ha HN. unfold rank. set (fa := filter (fun q => q <? a) tq). set (fb := filter (fun q => q <? b) tq).
  assert (La : length fa <= a). { apply Nat.le_trans with (length (seq 0 a)); [|rewrite seq_length; lia]. apply NoDup_incl_length; [apply NoDup_filter, HN|]. intros x Hx. apply filter_In in Hx. destruct Hx as [_ Hx]. apply Nat.ltb_lt in Hx. apply in_seq. lia. }
  assert (Lb : length fb <= length fa + (b - a - 1)).
  { assert (LL : length (fa ++ seq (S a) (b - a - 1)) = length fa + (b - a - 1)) by (rewrite app_length, seq_length; reflexivity). rewrite <- LL.
    apply NoDup_incl_length; [apply NoDup_filter, HN|]. intros x Hx. apply filter_In in Hx. destruct Hx as [Hx Hlt]. apply Nat.ltb_lt in Hlt. apply in_or_app.
    destruct (Nat.ltb_spec x a) as [H|H]; [left; apply filter_In; split; [exact Hx|apply Nat.ltb_lt, H]|]. right. apply in_seq. assert (x <> a) by (intros ->; contradiction). lia. }
  lia.
Qed.
Lemma rank_increasing tq l : NoDup tq -> increasing l -> increasing (map (rank tq) (filter (fun t => negb (memb t tq)) l)).
Proof.
  intros HN. induction l as [|a l IH]; intros H; [exact I|]. destruct H as [H1 H2]. cbn [filter]. destruct (memb a tq) eqn:EM; cbn [negb]; [apply IH, H2|]. cbn [map increasing]. split; [|apply IH, H2].
  intros y Hy. apply in_map_iff in Hy. destruct Hy as (b & <- & Hb). apply filter_In in Hb. apply rank_mono; [apply H1, Hb| |exact HN]. intros HI. apply memb_in in HI. congruence.
Qed.

(** ---- all terms ---- *)
Lemma taper_terms tq s q : StronglySorted gt tq -> length s = length tq -> Forall (fun z => z = 1%Z \/ z = (-1)%Z) s ->
  canonical_op q -> (forall t g, In t q -> In g (snd t) -> In (gtarget g) tq -> glabel g = "X"%string) ->
  exists t0, mapM (fun ct => foreach (snd ct) (taper_gate tq s) (fst ct, [])) q = Ok t0 /\ canonical_op t0 /\
    forall phi, op_act q (sector tq s phi) == sector tq s (op_act t0 phi).
Proof.
  intros HS HL HZ. induction q as [|t q IH]; intros HC HX.
  - exists []. split; [reflexivity|]. split; [constructor|]. intros phi. apply seq_sym. eapply seq_trans; [apply sector_ext with (b := szero); intros J; reflexivity|]. apply sector_zero.
  - inversion HC; subst. destruct (IH H2) as (t0 & E0 & HC0 & HA0); [intros t' g Ht'; apply HX; right; exact Ht'|].
    assert (HXt : forall g, In g (snd t) -> In (gtarget g) tq -> glabel g = "X"%string) by (intros g; apply HX; left; reflexivity).
    destruct (taper_term tq s HS HL HZ (snd t) (proj1 H1) HXt (fst t) []) as (k & gs' & E & HP & HT & HA).
    cbn [mapM]. rewrite E. cbn [bind]. rewrite E0. cbn [bind]. cbn [app]. eexists. split; [reflexivity|]. split.
    + constructor; [|exact HC0]. cbn [snd]. split; [exact HP|]. rewrite HT. apply rank_increasing; [apply ss_nodup, HS|apply H1].
    + intros phi J. unfold op_act at 1. rewrite Csum_cons. rewrite (HA phi J). pose proof (HA0 phi J) as E1. unfold op_act at 1 in E1. rewrite E1.
      assert (ES : op_act (((fst t * k)%C, gs') :: t0) phi == sadd (sscale (fst t * k)%C (circ_act gs' phi)) (op_act t0 phi)) by (intros K; unfold op_act; rewrite Csum_cons; reflexivity).
      rewrite (sector_ext tq s _ _ ES J). rewrite (sector_add tq s _ _ J). unfold sadd. rewrite (sector_scale tq s _ _ J). unfold sscale. ring.
Qed.

(** ---- the whole function ---- *)
Lemma single_anti_str x t : pauli_gate x -> glabel x = "X"%string -> str t -> anti_str [x] t = zb t (gtarget x).
Proof.
  intros Hx HL Ht. destruct (zb t (gtarget x)) eqn:EZ.
  - apply anticommute_iff; [apply single_str, Hx|apply Ht|]. intros psi. cbn [circ_act fold_left]. 
    pose proof (sign_of_str x t Hx Ht psi) as H. rewrite HL, <- zb_anti, EZ in H by exact Ht. apply seq_sym. eapply seq_trans; [apply sscale_ext, H|]. eapply seq_trans; [apply sscale_sscale|]. intros J. unfold sscale, sgn. ring.
  - apply commute_iff; [apply single_str, Hx|apply Ht|]. intros psi. pose proof (sign_of_str x t Hx Ht psi) as H. rewrite HL, <- zb_anti, EZ in H by exact Ht. apply seq_sym. eapply seq_trans; [apply H|]. apply sscale_1.
Qed.
Lemma x_letter t g : str t -> zb t (gtarget g) = false -> In g t -> glabel g = "X"%string.
Proof.
  intros Ht HZ Hg. unfold zb in HZ. assert (HP := proj1 Ht). rewrite Forall_forall in HP. destruct (pauli_label_cases _ (proj1 (HP g Hg))) as [E|E]; [exact E|].
  exfalso. assert (HT : existsb (fun h => Nat.eqb (gtarget h) (gtarget g) && lz (glabel h)) t = true); [|congruence].
  apply existsb_exists. exists g. split; [exact Hg|]. rewrite Nat.eqb_refl. destruct E as [-> | ->]; reflexivity.
Qed.
(** what simplify keeps and drops, as operators *)
Lemma simplify_parts o : pauli_op o -> exists k d, op_simplify true o = Ok k /\ canonical_op (k ++ d) /\ NoDup (map snd (k ++ d)) /\ big k /\ Forall (fun t => Cabs (fst t) <= 1e-12)%R d /\
  negligible d /\ canonical_op k /\ NoDup (map snd k) /\ (forall psi, wop o psi == op_act (k ++ d) psi) /\ forall psi, op_act (k ++ d) psi == sadd (op_act k psi) (op_act d psi).
Proof.
  intros HP. destruct (simplify_spec true o HP) as (k & d & E & HC & HN & HB & _ & HS & _ & HW). exists k, d. specialize (HB eq_refl).
  unfold canonical_op in HC. pose proof (proj1 (Forall_app _ _ _) HC) as [HCk HCd]. pose proof HN as HN'. rewrite map_app in HN'.
  split; [exact E|]. split; [exact HC|]. split; [exact HN|]. split; [exact HB|]. split; [exact HS|]. split; [split; [exact HS|apply NoDup_app_r in HN'; exact HN']|].
  split; [exact HCk|]. split; [apply NoDup_app_l in HN'; exact HN'|]. split; [|apply op_act_app].
  intros psi. eapply seq_trans; [apply HW|]. eapply seq_trans; [|apply wop_op, canonical_distinct, HC]. apply seq_sym, wop_app.
Qed.
Definition targets (gx : list (list gate * gate)) : list nat := map (fun p => gtarget (snd p)) gx.
Theorem taper_operator_spec gx v r o s : paired gx -> StronglySorted gt (targets gx) -> good r v [] -> (1e-12 < r)%R -> (forall psi, op_act v psi == compose (ops_of gx) psi) ->
  distinct_op o -> (forall p psi, In p gx -> op_act o (circ_act (fst p) psi) == circ_act (fst p) (op_act o psi)) ->
  Forall (fun z => z = 1%Z \/ z = (-1)%Z) s -> length s = length gx ->
  exists T d1 d2 d3 d4, taper_operator (targets gx) s o v = Ok T /\ canonical_op T /\ negligible d1 /\ negligible d2 /\ negligible d3 /\ negligible d4 /\
    forall phi, op_act v (op_act o (op_act v (sector (targets gx) s phi))) ==
      sadd (sector (targets gx) s (sadd (op_act T phi) (op_act d4 phi)))
        (sadd (op_act d3 (sector (targets gx) s phi))
          (op_act v (sadd (op_act d2 (sector (targets gx) s phi)) (op_act d1 (op_act v (sector (targets gx) s phi)))))).
Proof.
  intros HP HS HG Hr HV Ho HO HZ HL. set (tq := targets gx) in *. assert (Lt : length tq = length gx) by apply map_length.
  pose proof HG as (HCv & HNv & _ & _).
  assert (Swap : forall p psi, In p gx -> op_act v (gate_act (snd p) psi) == circ_act (fst p) (op_act v psi)).
  { intros p psi Hp. eapply seq_trans; [apply HV|]. eapply seq_trans; [apply compose_swap'; assumption|]. apply circ_act_ext, seq_sym, HV. }
  assert (Swap' : forall p psi, In p gx -> op_act v (circ_act (fst p) psi) == gate_act (snd p) (op_act v psi)).
  { intros p psi Hp. eapply seq_trans; [apply HV|]. eapply seq_trans; [apply compose_swap; assumption|]. apply gate_act_ext, seq_sym, HV. }
  unfold taper_operator.
  assert (F1 : forallb (fun z => (z =? 1)%Z || (z =? -1)%Z) s = true). { apply forallb_forall. intros z Hz. rewrite Forall_forall in HZ. destruct (HZ z Hz) as [-> | ->]; reflexivity. }
  rewrite F1. cbn [negb]. assert (F2 : (length s =? length tq) = true) by (apply Nat.eqb_eq; lia). rewrite F2. cbn [negb].
  destruct (simplify_parts o (distinct_pauli o Ho)) as (k1 & d1 & E1 & C1' & N1 & B1 & S1 & G1 & Ck1 & Nk1 & A1 & A1').
  unfold operator_product at 1. rewrite E1. cbn [bind].
  destruct (simplify_parts (raw_product k1 v)) as (k2 & d2 & E2 & C2' & N2 & B2 & S2 & G2 & Ck2 & Nk2 & A2 & A2'); [apply raw_product_pauli; apply canonical_pauli_op; assumption|].
  rewrite E2. cbn [bind]. unfold operator_product.
  destruct (simplify_exact v v (canonical_pauli_op v HCv) HCv HNv (good_big r v _ HG Hr) (fun psi => seq_refl _)) as (v' & Ev & HCv' & HNv' & HIv & HWv). rewrite Ev. cbn [bind].
  destruct (simplify_parts (raw_product v' k2)) as (k3 & d3 & E3 & C3' & N3 & B3 & S3 & G3 & Ck3 & Nk3 & A3 & A3'); [apply raw_product_pauli; apply canonical_pauli_op; assumption|].
  rewrite E3. cbn [bind].
  assert (AO : forall psi, op_act (k1 ++ d1) psi == op_act o psi) by (intros psi; eapply seq_trans; [apply seq_sym, A1|apply wop_op, Ho]).
  assert (AP : forall psi, op_act (k2 ++ d2) psi == op_act k1 (op_act v psi)).
  { intros psi. eapply seq_trans; [apply seq_sym, A2|]. eapply seq_trans; [apply wop_product|]. eapply seq_trans; [apply wop_op, canonical_distinct, Ck1|]. apply op_act_ext, wop_op, canonical_distinct, HCv. }
  assert (AQ : forall psi, op_act (k3 ++ d3) psi == op_act v (op_act k2 psi)).
  { intros psi. eapply seq_trans; [apply seq_sym, A3|]. eapply seq_trans; [apply wop_product|]. eapply seq_trans; [apply seq_sym, HWv|]. eapply seq_trans; [apply wop_op, canonical_distinct, HCv|]. apply op_act_ext, wop_op, canonical_distinct, Ck2. }
  assert (Hk1 : forall p psi, In p gx -> op_act k1 (circ_act (fst p) psi) == circ_act (fst p) (op_act k1 psi)).
  { intros p psi Hp. pose proof (paired_in gx p HP Hp) as [F _ _ _]. apply commute_op; [apply canonical_str, F|apply canonical_pauli_op, Ck1|].
    intros t Ht. apply (commute_terms (fst p) (k1 ++ d1)); [apply canonical_str, F|exact C1'|exact N1| |apply in_or_app; left; exact Ht|exact (big_nonzero k1 t B1 Ht)].
    intros phi. eapply seq_trans; [apply AO|]. eapply seq_trans; [apply HO, Hp|]. apply circ_act_ext, seq_sym, AO. }
  assert (Hk2 : forall p psi, In p gx -> op_act k2 (gate_act (snd p) psi) == circ_act (fst p) (op_act k2 psi)).
  { intros p psi Hp. pose proof (paired_in gx p HP Hp) as [F X _ _]. apply (truncated_swap (fst p) (snd p) k2 d2); try assumption; [apply canonical_str, F|].
    intros phi. eapply seq_trans; [apply AP|]. eapply seq_trans; [apply op_act_ext, Swap, Hp|]. eapply seq_trans; [apply Hk1, Hp|]. apply circ_act_ext, seq_sym, AP. }
  assert (HX : forall t g, In t k3 -> In g (snd t) -> In (gtarget g) tq -> glabel g = "X"%string).
  { intros t g Ht Hg Hin. unfold canonical_op in Ck3. rewrite Forall_forall in Ck3. pose proof (canonical_str _ (Ck3 t Ht)) as St. apply (x_letter (snd t) g St); [|exact Hg].
    unfold tq, targets in Hin. apply in_map_iff in Hin. destruct Hin as (p & Ep & Hp). pose proof (paired_in gx p HP Hp) as [F X XL _]. rewrite <- Ep. rewrite <- (single_anti_str (snd p) (snd t) X XL St).
    apply (commute_terms [snd p] (k3 ++ d3)); [apply single_str, X|exact C3'|exact N3| |apply in_or_app; left; exact Ht|exact (big_nonzero k3 t B3 Ht)].
    intros psi. change (circ_act [snd p]) with (gate_act (snd p)). eapply seq_trans; [apply AQ|]. eapply seq_trans; [apply op_act_ext, Hk2, Hp|]. eapply seq_trans; [apply Swap', Hp|]. apply gate_act_ext, seq_sym, AQ. }
  destruct (taper_terms tq s k3 HS ltac:(lia) HZ Ck3 HX) as (t0 & E4 & C4 & A4). rewrite E4. cbn [bind].
  destruct (simplify_parts t0 (canonical_pauli_op t0 C4)) as (T & d4 & E5 & C5' & N5 & B5 & S5 & G5 & Ck5 & Nk5 & A5 & A5').
  exists T, d1, d2, d3, d4. split; [exact E5|]. split; [exact Ck5|]. do 4 (split; [assumption|]). intros phi. set (ps := sector tq s phi).
  assert (AT : op_act t0 phi == sadd (op_act T phi) (op_act d4 phi)) by (eapply seq_trans; [apply seq_sym, wop_op, canonical_distinct, C4|]; eapply seq_trans; [apply A5|apply A5']).
  destruct (linear_op v) as (VE & VA & VS).
  assert (M1 : op_act o (op_act v ps) == sadd (op_act k2 ps) (sadd (op_act d2 ps) (op_act d1 (op_act v ps)))).
  { intros J. rewrite <- (AO (op_act v ps) J), (A1' (op_act v ps) J). unfold sadd. rewrite <- (AP ps J), (A2' ps J). unfold sadd. ring. }
  set (rest := sadd (op_act d2 ps) (op_act d1 (op_act v ps))) in *. intros J. rewrite (VE _ _ M1 J), (VA _ _ J).
  transitivity (op_act v (op_act k2 ps) J + op_act v rest J)%C; [reflexivity|]. rewrite <- (AQ ps J), (A3' ps J).
  transitivity (op_act k3 ps J + op_act d3 ps J + op_act v rest J)%C; [reflexivity|]. unfold ps at 1. rewrite (A4 phi J), (sector_ext tq s _ _ AT J).
  transitivity (sector tq s (sadd (op_act T phi) (op_act d4 phi)) J + (op_act d3 ps J + op_act v rest J))%C; [ring|reflexivity].
Qed.
