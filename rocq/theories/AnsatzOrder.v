(** order_terms on the strings of one excitation: the comparator is a strict weak ordering there. *)
From Coq Require Import Reals String List Arith Bool Lia Lra Sorted Permutation.
From Verif Require Import CBase Result Bits Spec OpSpec GateModel ComputerModel SafeProofs CircuitModel PauliProofs PauliIdx OperatorModel OperatorProofs PauliIndep SQModel SQProofs CompactModel CompactAct TwoLevel PauliPhase AnsatzSpec.
Import ListNotations.
Local Open Scope nat_scope.

Lemma key_weak {A} (lt : A -> A -> bool) (key : A -> list nat) l : (forall x y, In x l -> In y l -> lt x y = vec_ltb (key x) (key y)) -> strict_weak lt l.
Proof.
  intros H. split; [|split].
  - intros x Ix. rewrite H by assumption. apply vec_ltb_irrefl.
  - intros x y z Ix Iy Iz. rewrite !H by assumption. apply vec_ltb_trans.
  - intros x y z Ix Iy Iz. rewrite !H by assumption. intros A1 A2 B1 B2. rewrite (vec_ltb_total _ _ A1 A2), (vec_ltb_total _ _ B1 B2), !vec_ltb_irrefl. auto.
Qed.
Definition code (s : string) : nat := if (s =? "X")%string then 0 else if (s =? "Y")%string then 1 else 2.
Definition plab (s : string) : Prop := s = "X"%string \/ s = "Y"%string \/ s = "Z"%string.
Lemma code_ltb s t : plab s -> plab t -> str_ltb s t = (code s <? code t) /\ (s =? t)%string = (code s =? code t).
Proof. intros [->|[->| ->]] [->|[->| ->]]; split; reflexivity. Qed.
Lemma vec_app_same a x y : vec_ltb (a ++ x) (a ++ y) = vec_ltb x y.
Proof. induction a as [|n a IH]; [reflexivity|]. cbn [app vec_ltb]. now rewrite Nat.ltb_irrefl. Qed.
Lemma first_diff_same a : first_diff (fun x y : nat => negb (x =? y)) Nat.ltb a a = None.
Proof. induction a as [|n a IH]; [reflexivity|]. cbn [first_diff]. now rewrite Nat.eqb_refl. Qed.
Lemma first_diff_vec a b r x y : first_diff (fun x y : nat => negb (x =? y)) Nat.ltb a b = Some r -> vec_ltb (a ++ x) (b ++ y) = r.
Proof.
  revert b. induction a as [|m a IH]; intros [|n b]; cbn [first_diff app vec_ltb]; try discriminate. destruct (Nat.eqb_spec m n) as [->|N]; cbn [negb]; [rewrite Nat.ltb_irrefl; apply IH|].
  intros [= <-]. destruct (Nat.ltb_spec m n), (Nat.ltb_spec n m); try reflexivity; lia.
Qed.
Lemma first_diff_prefix a b : first_diff (fun x y : nat => negb (x =? y)) Nat.ltb a (a ++ b) = None /\ first_diff (fun x y : nat => negb (x =? y)) Nat.ltb (a ++ b) a = None.
Proof. induction a as [|n a IH]; [destruct b; split; reflexivity|]. cbn [first_diff app]. now rewrite Nat.eqb_refl. Qed.
Lemma labels_vec la lb : Forall plab la -> Forall plab lb ->
  match first_diff (fun x y : string => negb (x =? y)%string) str_ltb la lb with Some r => r | None => false end
  = vec_ltb (map code (firstn (min (length la) (length lb)) la)) (map code (firstn (min (length la) (length lb)) lb)).
Proof.
  intros Ha. revert lb. induction Ha as [|s la Hs _ IH]; intros lb Hb; destruct Hb as [|t lb Ht Hb]; try reflexivity.
  cbn [first_diff length min firstn map vec_ltb]. destruct (code_ltb s t Hs Ht) as (E1 & E2). rewrite E2. destruct (Nat.eqb_spec (code s) (code t)) as [E|N]; cbn [negb].
  - rewrite E, Nat.ltb_irrefl. now apply IH.
  - rewrite E1. destruct (Nat.ltb_spec (code s) (code t)), (Nat.ltb_spec (code t) (code s)); try reflexivity; lia.
Qed.
Definition tg (t : C * list gate) : list nat := map gtarget (snd t).
Definition lb (t : C * list gate) : list string := map glabel (snd t).
Lemma term_less_eq a b : Forall plab (lb a) -> Forall plab (lb b) ->
  term_less a b = match first_diff (fun x y => negb (x =? y)) Nat.ltb (tg a) (tg b) with Some r => r | None =>
    let n := min (length (lb a)) (length (lb b)) in vec_ltb (map code (firstn n (lb a))) (map code (firstn n (lb b))) end.
Proof.
  intros Ha Hb. unfold term_less, tg. destruct (first_diff _ _ (map gtarget (snd a)) _); [reflexivity|]. cbv zeta. rewrite <- labels_vec by assumption. unfold lb. destruct (first_diff _ _ (map glabel (snd a)) _); [reflexivity|apply Nat.ltb_irrefl].
Qed.
(** insertion in an increasing list *)
Fixpoint ins (q : nat) (T : list nat) : list nat := match T with [] => [q] | x :: r => if q <? x then q :: x :: r else x :: ins q r end.
Lemma ins_cases q T : increasing T -> ~ In q T -> (ins q T = T ++ [q] /\ (forall x, In x T -> x < q)) \/ ((exists r, first_diff (fun x y : nat => negb (x =? y)) Nat.ltb T (ins q T) = Some r) /\ exists r, first_diff (fun x y : nat => negb (x =? y)) Nat.ltb (ins q T) T = Some r).
Proof.
  induction T as [|x T IH]; intros HI HQ; [left; split; [reflexivity|intros ? []]|]. destruct HI as (H1 & HI). cbn [ins]. destruct (Nat.ltb_spec q x) as [L|L].
  - right. cbn [first_diff]. replace (x =? q) with false by (symmetry; apply Nat.eqb_neq; lia). replace (q =? x) with false by (symmetry; apply Nat.eqb_neq; lia). split; eexists; reflexivity.
  - assert (x <> q) by (intros ->; apply HQ; now left). destruct IH as [(E & A)|(D1 & D2)]; [exact HI|intros K; apply HQ; now right| |].
    + left. rewrite E. split; [reflexivity|]. intros y [<-|Iy]; [lia|now apply A].
    + right. cbn [first_diff]. rewrite Nat.eqb_refl. split; assumption.
Qed.
Lemma increasing_ext a b : increasing a -> increasing b -> (forall x, In x a <-> In x b) -> a = b.
Proof.
  revert b. induction a as [|x a IH]; intros [|y b] Ha Hb E.
  - reflexivity.
  - destruct (proj2 (E y)); now left.
  - destruct (proj1 (E x)); now left.
  - destruct Ha as (Ha1 & Ha), Hb as (Hb1 & Hb).
    assert (x = y). { destruct (proj1 (E x) (or_introl eq_refl)) as [->|I1]; [reflexivity|]. destruct (proj2 (E y) (or_introl eq_refl)) as [->|I2]; [reflexivity|]. specialize (Ha1 _ I2). specialize (Hb1 _ I1). lia. }
    subst y. f_equal. apply IH; [assumption|assumption|]. intros z. split; intros Iz.
    + destruct (proj1 (E z) (or_intror Iz)) as [<-|K]; [|exact K]. specialize (Ha1 _ Iz). lia.
    + destruct (proj2 (E z) (or_intror Iz)) as [<-|K]; [|exact K]. specialize (Hb1 _ Iz). lia.
Qed.
Lemma ins_In q T x : In x (ins q T) <-> x = q \/ In x T.
Proof. induction T as [|y T IH]; cbn [ins In]; [intuition|]. destruct (q <? y); cbn [In]; [|rewrite IH]; intuition. Qed.
Lemma ins_increasing q T : increasing T -> ~ In q T -> increasing (ins q T).
Proof.
  induction T as [|y T IH]; intros HI HQ; cbn [ins increasing]; [split; [intros ? []|exact I]|]. destruct HI as (H1 & HI). destruct (Nat.ltb_spec q y) as [L|L].
  - split; [|split; assumption]. intros z [<-|Iz]; [exact L|specialize (H1 _ Iz); lia].
  - assert (y <> q) by (intros ->; apply HQ; now left). split; [|apply IH; [exact HI|intros K; apply HQ; now right]]. intros z Iz. apply ins_In in Iz. destruct Iz as [->|Iz]; [lia|now apply H1].
Qed.
(** two kinds of strings: on T, and on T with q (carrying Z) *)
Lemma two_kinds_weak (l : qop) q T : increasing T -> ~ In q T ->
  (forall t, In t l -> Forall plab (lb t) /\ (tg t = T \/ tg t = ins q T) /\ forall g, In g (snd t) -> gtarget g = q -> glabel g = "Z"%string) -> strict_weak term_less l.
Proof.
  intros HI HQ H. assert (LL : forall t, length (lb t) = length (tg t)) by (intros t; unfold lb, tg; now rewrite !map_length).
  destruct (ins_cases q T HI HQ) as [(E & _)|((r1 & D1) & (r2 & D2))].
  - apply (key_weak _ (fun t => map code (firstn (length T) (lb t)))). intros x y Ix Iy. destruct (H x Ix) as (Px & Tx & Zx), (H y Iy) as (Py & Ty & Zy). rewrite term_less_eq by assumption.
    assert (Last : forall t, In t l -> tg t = T ++ [q] -> lb t = firstn (length T) (lb t) ++ ["Z"%string]).
    { intros t It Et. destruct (H t It) as (_ & _ & Z). unfold tg in Et. unfold lb. apply map_eq_app in Et. destruct Et as (g1 & g2 & Eg & E1 & E2). destruct g2 as [|g [|? ?]]; try discriminate. rewrite Eg, map_app, <- E1, map_length.
      rewrite <- (map_length glabel g1), firstn_app, firstn_all, Nat.sub_diag. cbn [map firstn]. rewrite app_nil_r. f_equal. f_equal. apply Z; [rewrite Eg; apply in_or_app; right; now left|]. now injection E2. }
    destruct Tx as [Tx|Tx], Ty as [Ty|Ty]; rewrite ?E in *; rewrite Tx, Ty; rewrite ?first_diff_same, ?(proj1 (first_diff_prefix _ _)), ?(proj2 (first_diff_prefix _ _)); cbv zeta; rewrite !LL, Tx, Ty, ?app_length; cbn [length].
    + now rewrite Nat.min_id.
    + now rewrite Nat.min_l by lia.
    + now rewrite Nat.min_r by lia.
    + rewrite Nat.min_id. pose proof (Last x Ix Tx) as Fx. pose proof (Last y Iy Ty) as Fy. assert (Lx : firstn (length T + 1) (lb x) = lb x) by (apply firstn_all2; rewrite LL, Tx, app_length; cbn; lia). assert (Ly : firstn (length T + 1) (lb y) = lb y) by (apply firstn_all2; rewrite LL, Ty, app_length; cbn; lia).
      rewrite Lx, Ly, Fx, Fy at 1. set (u := firstn (length T) (lb x)). set (v := firstn (length T) (lb y)). rewrite !map_app. cbn [map].
      assert (Hl : length u = length v) by (unfold u, v; rewrite !firstn_length, !LL, Tx, Ty; reflexivity). clearbody u v. clear - Hl. revert v Hl. induction u as [|a u IH]; intros [|b v] Hl; try discriminate; [reflexivity|]. cbn [map app vec_ltb]. rewrite IH by (now injection Hl). reflexivity.
  - apply (key_weak _ (fun t => tg t ++ map code (lb t))). intros x y Ix Iy. destruct (H x Ix) as (Px & Tx & _), (H y Iy) as (Py & Ty & _). rewrite term_less_eq by assumption.
    destruct Tx as [Tx|Tx], Ty as [Ty|Ty]; rewrite Tx, Ty; rewrite ?first_diff_same, ?D1, ?D2; cbv zeta.
    + rewrite !LL, Tx, Ty, Nat.min_id, vec_app_same, !firstn_all2 by (rewrite LL, ?Tx, ?Ty; lia). reflexivity.
    + symmetry. now apply first_diff_vec.
    + symmetry. now apply first_diff_vec.
    + rewrite !LL, Tx, Ty, Nat.min_id, vec_app_same, !firstn_all2 by (rewrite LL, ?Tx, ?Ty; lia). reflexivity.
Qed.

(** ---- the strings of an operator that acts as a real generator ---- *)
Definition zsign (b : bool) (r : R) : R := if b then (- r)%R else r.
Lemma ph_flip P I j : Forall pauli_gate P -> NoDup (map gtarget P) -> ~ In j (xm P) -> ph P (flip I j) = (RtoC (if mem j (map gtarget P) then -1 else 1) * ph P I)%C.
Proof.
  induction 1 as [|g r Hg _ IH]; intros N X; [cbn [ph fold_right map]; change (mem j []) with false; cbn iota; apply C_ext; cbn; ring|]. cbn [map] in N. inversion N as [|? ? N1 N2]; subst. cbn [ph fold_right]. fold (ph r I) (ph r (flip I j)).
  assert (X' : ~ In j (xm r)). { intros K. apply X. unfold xm. cbn [filter]. destruct (flipping g); [right|]; exact K. }
  rewrite (IH N2 X'). cbn [map]. rewrite mem_cons. destruct (Nat.eqb_spec j (gtarget g)) as [->|Ne]; cbn [orb].
  - rewrite (proj2 (mem_not _ _) N1). destruct (pauli_label_cases _ (proj1 Hg)) as [E|[E|E]].
    + exfalso. apply X. unfold xm, flipping. cbn [filter]. rewrite E. cbn. now left.
    + exfalso. apply X. unfold xm, flipping. cbn [filter]. rewrite E. cbn. now left.
    + unfold pph. rewrite E. cbn [String.eqb Ascii.eqb Bool.eqb]. rewrite bit_flip, Nat.eqb_refl. destruct (bit I (gtarget g)); cbn [negb xorb]; apply C_ext; cbn; ring.
  - rewrite (pph_bits _ _ (flip I j) I) by (rewrite bit_flip; destruct (Nat.eqb_spec (gtarget g) j); [congruence|reflexivity]). ring.
Qed.
Section Support.
  Variables (q : qop) (X : list nat) (k : nat -> R).
  Hypothesis HC : canonical_op q.
  Hypothesis HN : NoDup (map snd q).
  Hypothesis H0 : Forall (fun t => fst t <> C0) q.
  Hypothesis HX : NoDup X.
  Hypothesis HA : forall psi I, op_act q psi I = gen (flips X) k psi I.
  Lemma mask_mem t j : In t q -> (In j (xm (snd t)) <-> In j X).
  Proof.
    intros Ht. assert (E : msk (xm (snd t)) = msk X) by (apply (one_mask q X k); assumption). assert (Nt : NoDup (xm (snd t))) by (apply xm_NoDup, canonical_parts; unfold canonical_op in HC; rewrite Forall_forall in HC; now apply HC).
    rewrite <- !mem_In, <- !bit_msk by assumption. now rewrite E.
  Qed.
  Lemma fixed_support b j t : ~ In j X -> (forall I, k (flip I j) = zsign b (k I)) -> In t q -> mem j (tg t) = b.
  Proof.
    intros Nj Hj Ht. assert (Z : ((RtoC (if mem j (tg t) then -1 else 1) - RtoC (if b then -1 else 1)) * fst t)%C = C0).
    { apply (sub_zero q HC HN (fun _ => true) (fun t => (RtoC (if mem j (tg t) then -1 else 1) - RtoC (if b then -1 else 1)) * fst t)%C t); [|exact Ht|reflexivity]. intros psi I. rewrite Csum_filter. cbn iota.
      transitivity ((Csum (fun t => (fst t * ph (snd t) (flip I j))%C) q - RtoC (if b then -1 else 1) * Csum (fun t => (fst t * ph (snd t) I)%C) q) * psi (flips X I))%C.
      - rewrite <- (Csum_mul_l (RtoC (if b then -1 else 1))). replace (fun x => RtoC (if b then -1 else 1) * (fst x * ph (snd x) I))%C with (fun x : C * list gate => - (- (RtoC (if b then -1 else 1)) * (fst x * ph (snd x) I)))%C by (apply FunctionalExtensionality.functional_extensionality; intros x; ring).
        transitivity (Csum (fun t => (fst t * ph (snd t) (flip I j) + - (RtoC (if b then -1 else 1)) * (fst t * ph (snd t) I)))%C q * psi (flips X I))%C.
        2: { f_equal. rewrite Csum_add. replace (Csum (fun x : C * list gate => - (- RtoC (if b then -1 else 1) * (fst x * ph (snd x) I)))%C q) with (- Csum (fun x : C * list gate => (- RtoC (if b then -1 else 1) * (fst x * ph (snd x) I)))%C q)%C. { ring. } clear. induction q as [|x r IH]; [rewrite !Csum_nil; ring|]. rewrite !Csum_cons, <- IH. ring. }
        rewrite <- Csum_mul_r. apply Csum_ext. intros u Iu. unfold canonical_op in HC. pose proof HC as HC'. rewrite Forall_forall in HC'. destruct (canonical_parts _ (HC' u Iu)) as (Pu & Nu). rewrite (string_act _ Pu Nu).
        assert (Fu : flips (xm (snd u)) I = flips X I) by (apply (same_flips q X k); assumption). rewrite Fu. rewrite (ph_flip _ _ _ Pu Nu) by (rewrite mask_mem by exact Iu; exact Nj). fold (tg u). ring.
      - rewrite !(sum_phases q X k) by assumption. rewrite Hj. destruct b; cbn [zsign]; apply C_ext; cbn; ring. }
    pose proof H0 as H0'. rewrite Forall_forall in H0'. specialize (H0' t Ht). apply Cmul_integral in Z. destruct Z as [Z|Z]; [|contradiction]. apply (f_equal Re) in Z. revert Z. destruct (mem j (tg t)), b; cbn; intros Z; try reflexivity; lra.
  Qed.
  Lemma support_weak q0 : ~ In q0 X -> (forall j, ~ In j X -> j <> q0 -> exists b, forall I, k (flip I j) = zsign b (k I)) -> strict_weak term_less q.
  Proof.
    intros NX HS. assert (NE : q = [] \/ exists t0, In t0 q) by (destruct q as [|t0 r]; [now left|right; exists t0; now left]). destruct NE as [E|(t0 & It0)].
    { rewrite E. split; [intros x []|split; intros x y z []]. }
    assert (Inc : forall t, In t q -> increasing (tg t) /\ Forall pauli_gate (snd t)). { intros t It. unfold canonical_op in HC. rewrite Forall_forall in HC. destruct (HC t It) as (A & B). split; [exact B|exact A]. }
    set (T := filter (fun x => negb (x =? q0)) (tg t0)).
    assert (FI : forall l, increasing l -> increasing (filter (fun x => negb (x =? q0)) l)).
    { induction l as [|x r IH]; intros Hl; [exact Hl|]. destruct Hl as (A & B). cbn [filter]. destruct (negb (x =? q0)); [|now apply IH]. split; [|now apply IH]. intros y Iy. apply filter_In in Iy. now apply A. }
    assert (TI : increasing T) by (apply FI, Inc, It0).
    assert (TQ : ~ In q0 T) by (intros K; apply filter_In in K; rewrite Nat.eqb_refl in K; destruct K; discriminate).
    assert (TT : forall t x, In t q -> x <> q0 -> (In x (tg t) <-> In x T)).
    { assert (G : forall t x, In t q -> x <> q0 -> (In x (tg t) <-> In x (tg t0))).
      { intros t x It Nx. destruct (in_dec Nat.eq_dec x X) as [IX|OX].
        - split; intros _; [assert (K : In x (xm (snd t0))) by (apply mask_mem; assumption) | assert (K : In x (xm (snd t))) by (apply mask_mem; assumption)]; now apply xm_In in K.
        - destruct (HS x OX Nx) as (b & Hb). rewrite <- !mem_In. rewrite (fixed_support b x t OX Hb It), (fixed_support b x t0 OX Hb It0). tauto. }
      intros t x It Nx. rewrite (G t x It Nx). unfold T. rewrite filter_In. destruct (Nat.eqb_spec x q0); [contradiction|]. cbn. tauto. }
    apply (two_kinds_weak q q0 T TI TQ). intros t It. destruct (Inc t It) as (A & B). split; [|split].
    - unfold lb. apply Forall_map. eapply Forall_impl; [|exact B]. intros g Hg. apply pauli_label_cases, Hg.
    - destruct (in_dec Nat.eq_dec q0 (tg t)) as [Iq|Nq].
      + right. apply increasing_ext; [exact A|now apply ins_increasing|]. intros x. rewrite ins_In. destruct (Nat.eq_dec x q0) as [->|Nx]; [tauto|]. rewrite (TT t x It Nx). tauto.
      + left. apply increasing_ext; [exact A|exact TI|]. intros x. destruct (Nat.eq_dec x q0) as [->|Nx]; [tauto|]. now apply TT.
    - intros g Ig Eg. rewrite Forall_forall in B. destruct (pauli_label_cases _ (proj1 (B g Ig))) as [E|[E|E]]; [| |exact E]; exfalso; apply NX; apply (mask_mem t q0 It); unfold xm; rewrite <- Eg; apply in_map, filter_In; (split; [exact Ig|]); unfold flipping; rewrite E; reflexivity.
  Qed.
End Support.
