(** The unitary built by find_Z2_symmetries: the products lose nothing. *)
From Coq Require Import Reals String List Arith Lia Bool Lra Permutation Sorted.
From Verif Require Import CBase Result Bits Spec GateModel OpSpec ComputerModel SafeProofs GateProofs LibProofs CircuitModel PauliProofs OperatorModel OperatorProofs PauliIndep
  TaperModel TaperSpec TaperAlg TaperKernel TaperGS TaperAbel TaperPauli TaperSym TaperFind.
Import ListNotations.
Local Open Scope nat_scope.

(** ---- simplify of an operator with no small coefficient ---- *)
Definition big (o : qop) : Prop := Forall (fun t => 1e-12 < Cabs (fst t))%R o.
Lemma big_nonzero o t : big o -> In t o -> fst t <> C0.
Proof. intros H Ht E. unfold big in H. rewrite Forall_forall in H. specialize (H t Ht). rewrite E, Cabs_C0 in H. lra. Qed.
Lemma simplify_exact o o2 : pauli_op o -> canonical_op o2 -> NoDup (map snd o2) -> big o2 -> (forall psi, wop o psi == wop o2 psi) ->
  exists k, op_simplify true o = Ok k /\ canonical_op k /\ NoDup (map snd k) /\ (forall t, In t k <-> In t o2) /\ forall psi, wop o psi == wop k psi.
Proof.
  intros HP HC2 HN2 HB2 HW2. destruct (simplify_spec true o HP) as (k & d & E & HC & HN & HB & _ & HS & _ & HW). specialize (HB eq_refl).
  assert (HEq : forall psi, op_act (k ++ d) psi == op_act o2 psi).
  { intros psi. eapply seq_trans; [apply seq_sym, wop_op, canonical_distinct, HC|]. eapply seq_trans; [apply wop_app|]. eapply seq_trans; [apply seq_sym, HW|].
    eapply seq_trans; [apply HW2|]. apply wop_op, canonical_distinct, HC2. }
  assert (HD : forall t, In t d -> fst t = C0).
  { intros t Ht. destruct (Ceq_dec (fst t) C0) as [|N]; [assumption|]. exfalso.
    assert (HI : In t o2) by (apply (op_unique_in (k ++ d) o2); try assumption; apply in_or_app; right; exact Ht).
    unfold big in HB2. rewrite Forall_forall in HB2, HS. specialize (HB2 t HI). specialize (HS t Ht). lra. }
  unfold canonical_op in HC. apply Forall_app in HC as HC'. destruct HC' as [HCk HCd].
  assert (HNk : NoDup (map snd k)) by (rewrite map_app in HN; apply NoDup_app_l in HN; exact HN).
  exists k. split; [exact E|]. split; [exact HCk|]. split; [exact HNk|]. split.
  - intros t. split; intros Ht.
    + apply (op_unique_in (k ++ d) o2); try assumption; [apply in_or_app; left; exact Ht|]. exact (big_nonzero k t HB Ht).
    + assert (HI : In t (k ++ d)) by (apply (op_unique_in o2 (k ++ d)); try assumption; [intros psi; apply seq_sym, HEq|exact (big_nonzero o2 t HB2 Ht)]).
      apply in_app_or in HI. destruct HI as [HI|HI]; [exact HI|]. exfalso. apply (big_nonzero o2 t HB2 Ht), HD, HI.
  - intros psi. eapply seq_trans; [apply HW|]. intros J. unfold sadd. assert (EZ : wop d psi J = C0); [|rewrite EZ; ring].
    unfold wop. apply Csum_zero. intros t Ht. rewrite (HD t Ht). ring.
Qed.

(** ---- signs of canonical forms ---- *)
Lemma conj_nonzero c : Cnorm2 c = 1%R -> Cconj c <> C0.
Proof. intros H. apply Cnorm1_nonzero. rewrite <- H. unfold Cnorm2, Cconj; cbn. ring. Qed.
Lemma sign_transfer A p p' x b : x <> C0 -> (forall psi, circ_act p psi == sscale x (circ_act p' psi)) -> sign_of A p b -> sign_of A p' b.
Proof.
  intros Hx HA Hs psi. apply (sscale_cancel x); [exact Hx|]. eapply seq_trans; [apply seq_sym, HA|]. eapply seq_trans; [apply Hs|].
  eapply seq_trans; [apply sscale_ext, gate_act_ext, HA|]. eapply seq_trans; [apply sscale_ext, gate_act_scale|]. intros J. unfold sscale. ring.
Qed.
Lemma canon_sign A p c w b : pauli_gate A -> Forall pauli_gate p -> canonicalize_pauli_circuit p = Ok (c, w) -> sign_of A p b -> anti (glabel A) (gtarget A) w = b.
Proof.
  intros HA HP E HS. destruct (canon_circuit p HP) as (c' & w' & E' & HC & HN & _ & HW). assert (c' = c /\ w' = w) as [-> ->] by (split; congruence).
  apply (sign_of_unique A w); [exact HA|apply HC|apply sign_of_str; [exact HA|apply canonical_str, HC]|].
  eapply sign_transfer; [apply conj_nonzero, HN|exact HW|exact HS].
Qed.
Lemma canon_anti A a b c w : pauli_gate A -> str a -> str b -> canonicalize_pauli_circuit (a ++ b) = Ok (c, w) ->
  anti (glabel A) (gtarget A) w = xorb (anti (glabel A) (gtarget A) a) (anti (glabel A) (gtarget A) b).
Proof.
  intros HA Ha Hb E. apply (canon_sign A (a ++ b) c w); [exact HA|apply Forall_app; split; [apply Ha|apply Hb]|exact E|].
  apply sign_of_app; apply sign_of_str; assumption.
Qed.
Lemma zb_anti gs q : str gs -> zb gs q = anti "X" q gs.
Proof. intros H. rewrite (anti_xz "X" q gs eq_refl H). cbn. rewrite andb_false_r, andb_true_r. symmetry. apply xorb_false_l. Qed.
Lemma xgate q : exists x, make_gate "X" q q 0 = Ok x /\ pauli_gate x /\ glabel x = "X"%string /\ gtarget x = q.
Proof. destruct (pauli_make "X" q eq_refl) as (x & E & H1 & H2 & H3 & _). exists x. auto. Qed.
Lemma canon_zb a b c w q : str a -> str b -> canonicalize_pauli_circuit (a ++ b) = Ok (c, w) -> zb w q = xorb (zb a q) (zb b q).
Proof.
  intros Ha Hb E. destruct (xgate q) as (x & _ & HP & HL & HT).
  destruct (canon_word (a ++ b)) as (c' & w' & E' & HC & _); [apply Forall_app; split; [apply Ha|apply Hb]|]. assert (w' = w) by congruence. subst w'.
  rewrite (zb_anti w), (zb_anti a), (zb_anti b) by (assumption || apply canonical_str, HC).
  pose proof (canon_anti x a b c w HP Ha Hb E) as H. rewrite HL, HT in H. exact H.
Qed.
Lemma single_str x : pauli_gate x -> str [x].
Proof. intros H. split; [constructor; [exact H|constructor]|]. cbn [map]. constructor; [intros []|constructor]. Qed.
Lemma single_zb x q : glabel x = "X"%string -> zb [x] q = false.
Proof. intros H. unfold zb. cbn [existsb]. rewrite H. cbn. rewrite andb_false_r. reflexivity. Qed.

(** ---- canonical_order term by term ---- *)
Lemma canonical_order_terms o : pauli_op o -> exists o2, canonical_order o = Ok o2 /\
  Forall2 (fun t t' => exists c, canonicalize_pauli_circuit (snd t) = Ok (c, snd t') /\ fst t' = (fst t * c)%C /\ Cnorm2 c = 1%R /\ canonical_pauli (snd t')) o o2.
Proof.
  induction o as [|[c gs] r IH]; intros H; [exists []; split; [reflexivity|constructor]|]. inversion H; subst. cbn [snd] in *.
  destruct (canon_word gs H2) as (d & gs' & E1 & HC1 & HN & _). destruct (IH H3) as (o2 & E & HF). cbn [canonical_order]. rewrite E1. cbn [bind fst snd]. rewrite E. cbn [bind].
  eexists. split; [reflexivity|]. constructor; [|exact HF]. exists d. cbn [fst snd]. auto.
Qed.
Definition canon_key (w : list gate) : list gate := match canonicalize_pauli_circuit w with Ok p => snd p | _ => [] end.
Lemma keys_of o o2 : Forall2 (fun t t' : C * list gate => exists c, canonicalize_pauli_circuit (snd t) = Ok (c, snd t') /\ fst t' = (fst t * c)%C /\ Cnorm2 c = 1%R /\ canonical_pauli (snd t')) o o2 ->
  map snd o2 = map canon_key (map snd o).
Proof. induction 1 as [|t t' o o2 (c & E & _) _ IH]; [reflexivity|]. cbn [map]. rewrite IH. f_equal. unfold canon_key. rewrite E. reflexivity. Qed.

Lemma key_inj a b t t' : canonical_pauli t -> canonical_pauli t' -> str a -> str b -> (forall A, pauli_gate A -> anti (glabel A) (gtarget A) a = anti (glabel A) (gtarget A) b) ->
  canon_key (t ++ a) = canon_key (t' ++ b) -> t = t'.
Proof.
  intros Ht Ht' Ha Hb HA E. unfold canon_key in E.
  destruct (canon_word (t ++ a)) as (c1 & w1 & E1 & _); [apply Forall_app; split; [apply Ht|apply Ha]|].
  destruct (canon_word (t' ++ b)) as (c2 & w2 & E2 & _); [apply Forall_app; split; [apply Ht'|apply Hb]|].
  rewrite E1, E2 in E. cbn [snd] in E. subst w2. apply canonical_from_signs; [exact Ht|exact Ht'|]. intros A PA.
  pose proof (canon_anti A t a c1 w1 PA (canonical_str t Ht) Ha E1) as S1. pose proof (canon_anti A t' b c2 w1 PA (canonical_str t' Ht') Hb E2) as S2.
  rewrite (HA A PA) in S1. rewrite S1 in S2. destruct (anti (glabel A) (gtarget A) t), (anti (glabel A) (gtarget A) t'), (anti (glabel A) (gtarget A) b); cbn in S2; congruence.
Qed.
Lemma key_zb a t q : canonical_pauli t -> str a -> zb (canon_key (t ++ a)) q = xorb (zb t q) (zb a q).
Proof.
  intros Ht Ha. unfold canon_key. destruct (canon_word (t ++ a)) as (c1 & w1 & E1 & _); [apply Forall_app; split; [apply Ht|apply Ha]|]. rewrite E1. cbn [snd].
  exact (canon_zb t a c1 w1 q (canonical_str t Ht) Ha E1).
Qed.
Lemma pair_keys_nodup g x q ts : canonical_pauli g -> pauli_gate x -> glabel x = "X"%string -> zb g q = true -> NoDup ts -> Forall canonical_pauli ts -> (forall t, In t ts -> zb t q = false) ->
  NoDup (map canon_key (flat_map (fun t => [t ++ g; t ++ [x]]%list) ts)).
Proof.
  intros Hg Hx HL HZ. pose proof (canonical_str g Hg) as Sg. pose proof (single_str x Hx) as Sx. induction ts as [|t ts IH]; intros HN HC HB; [constructor|].
  inversion HN; subst. inversion HC; subst. cbn [flat_map map app].
  assert (HI : forall w, In w (map canon_key (flat_map (fun t => [t ++ g; t ++ [x]]%list) ts)) -> exists t', In t' ts /\ (w = canon_key (t' ++ g) \/ w = canon_key (t' ++ [x]))).
  { intros w Hw. apply in_map_iff in Hw. destruct Hw as (u & <- & Hu). apply in_flat_map in Hu. destruct Hu as (t' & Ht' & [<-|[<-|[]]]); exists t'; auto. }
  rewrite Forall_forall in H4. constructor; [|constructor].
  - intros [E|HX].
    + apply (f_equal (fun w => zb w q)) in E. rewrite !key_zb in E by assumption. rewrite HZ, (single_zb x q HL), (HB t (or_introl eq_refl)) in E. discriminate.
    + destruct (HI _ HX) as (t' & Ht' & [E|E]).
      * apply (key_inj g g) in E; try assumption; [|apply H4, Ht'|auto]. subst t'. contradiction.
      * apply (f_equal (fun w => zb w q)) in E. rewrite !key_zb in E by (assumption || apply H4, Ht'). rewrite HZ, (single_zb x q HL), (HB t (or_introl eq_refl)), (HB t' (or_intror Ht')) in E. discriminate.
  - intros HX. destruct (HI _ HX) as (t' & Ht' & [E|E]).
    + apply (f_equal (fun w => zb w q)) in E. rewrite !key_zb in E by (assumption || apply H4, Ht'). rewrite HZ, (single_zb x q HL), (HB t (or_introl eq_refl)), (HB t' (or_intror Ht')) in E. discriminate.
    + apply (key_inj [x] [x]) in E; try assumption; [|apply H4, Ht'|auto]. subst t'. contradiction.
  - apply IH; [assumption|apply Forall_forall, H4|]. intros t' Ht'. apply HB. right; exact Ht'.
Qed.

(** ---- one multiplication ---- *)
Definition good (r : R) (acc : qop) (qs : list nat) : Prop :=
  canonical_op acc /\ NoDup (map snd acc) /\ Forall (fun t => Cabs (fst t) = r) acc /\ forall t q, In t acc -> In q qs -> zb (snd t) q = false.
Lemma good_big r acc qs : good r acc qs -> (1e-12 < r)%R -> big acc.
Proof. intros (_ & _ & H & _) Hr. eapply Forall_impl; [|exact H]. cbn. intros t E. rewrite E. exact Hr. Qed.
Definition rho : R := (1 / sqrt 2)%R.
Lemma rho_pos : (0 < rho)%R.
Proof. unfold rho. apply Rdiv_lt_0_compat; [lra|apply sqrt_lt_R0; lra]. Qed.
Lemma rho_sq : (rho * rho = / 2)%R.
Proof. unfold rho. assert (H : (sqrt 2 * sqrt 2 = 2)%R) by (apply sqrt_sqrt; lra). assert (sqrt 2 <> 0)%R by (intros E; rewrite E in H; lra). field_simplify; [|assumption]. replace (sqrt 2 ^ 2)%R with 2%R by (cbn; rewrite Rmult_1_r; symmetry; exact H). lra. Qed.
Lemma rho_abs : Cabs (RtoC rho) = rho.
Proof. rewrite Cabs_RtoC. apply Rabs_pos_eq. left. apply rho_pos. Qed.
Lemma Cabs_norm1 c : Cnorm2 c = 1%R -> Cabs c = 1%R.
Proof. intros H. unfold Cabs. rewrite H. apply sqrt_1. Qed.
Lemma uop_distinct' g x : canonical_pauli g -> pauli_gate x -> distinct_op (uop g x).
Proof. intros Hg Hx. constructor; [exact (canonical_str g Hg)|]. constructor; [exact (single_str x Hx)|constructor]. Qed.
Lemma f2_in_r {A B} (R : A -> B -> Prop) l l' : Forall2 R l l' -> forall y, In y l' -> exists x, In x l /\ R x y.
Proof. induction 1 as [|x y l l' HR HF IH]; intros z Hz; [destruct Hz|]. destruct Hz as [<-|Hz]; [exists x; split; [left; reflexivity|exact HR]|]. destruct (IH z Hz) as (x' & Hx' & HR'). exists x'. split; [right; exact Hx'|exact HR']. Qed.

Lemma product_step r acc g x q qs : good r acc (q :: qs) -> (1e-12 < r)%R -> (1e-12 < r * rho)%R -> canonical_pauli g -> pauli_gate x -> glabel x = "X"%string ->
  zb g q = true -> (forall q', In q' qs -> zb g q' = false) ->
  exists p, operator_product acc (uop g x) true true = Ok p /\ good (r * rho) p qs /\ forall psi, op_act p psi == op_act acc (op_act (uop g x) psi).
Proof.
  intros HG Hr Hr' Hg Hx HL HZ HQ. pose proof HG as (HC & HN & HA & HB). unfold operator_product.
  destruct (simplify_exact acc acc (canonical_pauli_op acc HC) HC HN (good_big r acc _ HG Hr) (fun psi => seq_refl _)) as (k & Ek & HCk & HNk & HIk & HWk).
  rewrite Ek. cbn [bind]. set (u := uop g x). assert (Du : distinct_op u) by (apply uop_distinct'; assumption).
  assert (HPr : pauli_op (raw_product k u)) by (apply raw_product_pauli; [apply canonical_pauli_op, HCk|apply distinct_pauli, Du]).
  destruct (canonical_order_terms _ HPr) as (o2 & Eo & HF2). pose proof (canonical_order_spec _ HPr) as (o2' & Eo' & HCo & _ & HWo & _). assert (o2' = o2) by congruence. subst o2'.
  assert (HT2 : forall t, In t o2 -> exists t0 b, In t0 k /\ (snd t = canon_key (snd t0 ++ (if b : bool then g else [x]))) /\ Cabs (fst t) = (r * rho)%R).
  { intros t Ht. destruct (f2_in_r _ _ _ HF2 t Ht) as (t1 & Ht1 & c & E & Ef & Hc & _). unfold raw_product in Ht1. apply in_flat_map in Ht1. destruct Ht1 as (t0 & Ht0 & Ht1).
    assert (Ha0 : Cabs (fst t0) = r) by (rewrite Forall_forall in HA; apply HA, HIk, Ht0).
    unfold u, uop in Ht1. destruct Ht1 as [<-|[<-|[]]]; cbn [fst snd] in E, Ef; [exists t0, true|exists t0, false]; (split; [exact Ht0|]); (split; [unfold canon_key; rewrite E; reflexivity|]);
      rewrite Ef, !Cabs_mul, Ha0, (Cabs_norm1 c Hc); fold rho; rewrite rho_abs; ring. }
  assert (HN2 : NoDup (map snd o2)).
  { rewrite (keys_of _ _ HF2). replace (map snd (raw_product k u)) with (flat_map (fun t => [t ++ g; t ++ [x]]%list) (map snd k)).
    - apply (pair_keys_nodup g x q); try assumption; [apply Forall_forall; intros t Ht; apply in_map_iff in Ht; destruct Ht as (t0 & <- & Ht); unfold canonical_op in HCk; rewrite Forall_forall in HCk; apply HCk, Ht|].
      intros t Ht. apply in_map_iff in Ht. destruct Ht as (t0 & <- & Ht). apply HB; [apply HIk, Ht|left; reflexivity].
    - unfold raw_product. clear. induction k as [|t k IH]; [reflexivity|]. cbn [map flat_map]. rewrite map_app, <- IH. reflexivity. }
  destruct (simplify_exact (raw_product k u) o2 HPr HCo HN2) as (p & Ep & HCp & HNp & HIp & HWp); [apply Forall_forall; intros t Ht; destruct (HT2 t Ht) as (_ & _ & _ & _ & ->); exact Hr'|exact HWo|].
  exists p. split; [exact Ep|]. split.
  - split; [exact HCp|]. split; [exact HNp|]. split.
    + apply Forall_forall. intros t Ht. apply HIp in Ht. destruct (HT2 t Ht) as (_ & _ & _ & _ & E). exact E.
    + intros t q' Ht Hq'. apply HIp in Ht. destruct (HT2 t Ht) as (t0 & b & Ht0 & Es & _). rewrite Es. unfold canonical_op in HCk. rewrite Forall_forall in HCk.
      rewrite key_zb; [|apply HCk, Ht0|destruct b; [apply canonical_str, Hg|apply single_str, Hx]]. rewrite (HB t0 q'); [|apply HIk, Ht0|right; exact Hq'].
      destruct b; [rewrite HQ by exact Hq'; reflexivity|rewrite (single_zb x q' HL); reflexivity].
  - intros psi. eapply seq_trans; [apply seq_sym, wop_op, canonical_distinct, HCp|]. eapply seq_trans; [apply seq_sym, HWp|]. eapply seq_trans; [apply wop_product|].
    eapply seq_trans; [apply seq_sym, HWk|]. eapply seq_trans; [apply wop_op, canonical_distinct, HC|]. apply op_act_ext, wop_op, Du.
Qed.

(** ---- all of them ---- *)
Definition pairs := list (list gate * gate).
Fixpoint chain (gx : list (list gate * gate)) : Prop :=
  match gx with
  | [] => True
  | p :: r => canonical_pauli (fst p) /\ pauli_gate (snd p) /\ glabel (snd p) = "X"%string /\ zb (fst p) (gtarget (snd p)) = true /\
      (forall p', In p' r -> zb (fst p) (gtarget (snd p')) = false) /\ chain r
  end.
Definition ops_of (gx : list (list gate * gate)) : list qop := map (fun p => uop (fst p) (snd p)) gx.
Definition compose (us : list qop) (psi : state) : state := fold_right op_act psi us.
Lemma compose_ext us a b : a == b -> compose us a == compose us b.
Proof. intros H. induction us as [|u us IH]; [exact H|]. cbn [compose fold_right]. apply op_act_ext, IH. Qed.
Lemma products_exact gx : forall r acc, chain gx -> good r acc (map (fun p => gtarget (snd p)) gx) -> (0 < r)%R -> (1e-12 < r * rho ^ length gx)%R ->
  exists v, foreach (ops_of gx) (fun op acc => operator_product acc op true true) acc = Ok v /\ good (r * rho ^ length gx) v [] /\
    forall psi, op_act v psi == op_act acc (compose (ops_of gx) psi).
Proof.
  assert (R1 : (rho <= 1)%R) by (pose proof rho_sq; pose proof rho_pos; nra).
  assert (RP : forall m, (0 < rho ^ m <= 1)%R).
  { induction m as [|m IH]; cbn [pow]; [lra|]. pose proof rho_pos. nra. }
  induction gx as [|[g x] gx IH]; intros r acc HC HG Hr Hb.
  - cbn [ops_of map foreach]. exists acc. split; [reflexivity|]. cbn [length pow]. rewrite Rmult_1_r. split; [exact HG|]. intros psi; apply seq_refl.
  - destruct HC as (H1 & H2 & H3 & H4 & H5 & H6). cbn [fst snd] in *. cbn [length pow] in Hb. pose proof (RP (length gx)) as RL. pose proof rho_pos as R0.
    assert (Hb1 : (1e-12 < r * rho)%R) by nra. assert (Hb0 : (1e-12 < r)%R) by nra.
    cbn [map snd] in HG. destruct (product_step r acc g x (gtarget x) (map (fun p => gtarget (snd p)) gx) HG Hb0 Hb1 H1 H2 H3 H4) as (p & Ep & HGp & HAp).
    { intros q' Hq'. apply in_map_iff in Hq'. destruct Hq' as (p' & <- & Hp'). apply H5, Hp'. }
    destruct (IH (r * rho)%R p H6 HGp) as (v & Ev & HGv & HAv); [nra|rewrite Rmult_assoc; exact Hb|].
    exists v. cbn [ops_of map foreach fst snd]. rewrite Ep. cbn [bind]. split; [exact Ev|]. cbn [length pow]. rewrite Rmult_assoc in HGv. split; [exact HGv|].
    intros psi. eapply seq_trans; [apply HAv|]. apply HAp.
Qed.
Lemma good_first g x qs : canonical_pauli g -> pauli_gate x -> glabel x = "X"%string -> zb g (gtarget x) = true -> (forall q, In q qs -> zb g q = false) -> good rho (uop g x) qs.
Proof.
  intros Hg Hx HL HZ HQ. split; [|split; [|split]].
  - constructor; [exact Hg|]. constructor; [|constructor]. cbn [snd]. split; [constructor; [exact Hx|constructor]|cbn; auto]. split; [intros y []|exact I].
  - cbn [uop map snd]. constructor; [|constructor; [intros []|constructor]]. intros [E|[]]. rewrite <- E in HZ. rewrite (single_zb x _ HL) in HZ. discriminate.
  - constructor; [exact rho_abs|]. constructor; [exact rho_abs|constructor].
  - intros t q [<-|[<-|[]]] Hq; cbn [snd]; [apply HQ, Hq|apply single_zb, HL].
Qed.
Lemma unitary_exact p gx : chain (p :: gx) -> (1e-12 < rho ^ S (length gx))%R ->
  exists v, foreach (ops_of gx) (fun op acc => operator_product acc op true true) (uop (fst p) (snd p)) = Ok v /\ good (rho ^ S (length gx)) v [] /\
    forall psi, op_act v psi == compose (ops_of (p :: gx)) psi.
Proof.
  intros (H1 & H2 & H3 & H4 & H5 & H6) Hb. destruct (products_exact gx rho (uop (fst p) (snd p)) H6) as (v & E & HG & HA).
  - apply good_first; try assumption. intros q Hq. apply in_map_iff in Hq. destruct Hq as (p' & <- & Hp'). apply H5, Hp'.
  - apply rho_pos.
  - exact Hb.
  - exists v. split; [exact E|]. split; [exact HG|exact HA].
Qed.
Lemma rho_bound k : k <= 79 -> (1e-12 < rho ^ k)%R.
Proof.
  intros Hk. assert (RP : forall m, (0 < rho ^ m)%R) by (intros m; apply pow_lt, rho_pos).
  assert (R1 : (rho < 1)%R) by (pose proof rho_sq; pose proof rho_pos; nra).
  assert (HM : (rho ^ 79 <= rho ^ k)%R).
  { replace 79 with (k + (79 - k)) by lia. rewrite pow_add. assert (HL : forall m, (rho ^ m <= 1)%R). { induction m as [|m IH]; cbn [pow]; [lra|]. pose proof (RP m). pose proof rho_pos. nra. }
    pose proof (RP k). pose proof (HL (79 - k)). nra. }
  apply Rlt_le_trans with (rho ^ 79)%R; [|exact HM]. change 79 with (1 + 2 * 39). rewrite pow_add, pow_1, pow_mult. replace (rho ^ 2)%R with (/ 2)%R by (cbn [pow]; rewrite Rmult_1_r, rho_sq; reflexivity).
  assert (H2 : (7 / 10 < rho)%R). { pose proof rho_sq. pose proof rho_pos. destruct (Rlt_dec (7/10) rho) as [|N]; [assumption|]. assert (rho <= 7/10)%R by lra. nra. }
  assert (H3 : ((/ 2) ^ 39 = / 549755813888)%R) by (rewrite pow_inv; f_equal; cbn [pow]; lra).
  rewrite H3. assert (H4 : (0 < / 549755813888)%R) by lra. apply Rlt_trans with (7 / 10 * / 549755813888)%R; [lra|]. apply Rmult_lt_compat_r; assumption.
Qed.
