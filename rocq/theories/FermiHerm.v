(** Real and Hermitian fermionic operators have real and Hermitian normal forms. *)
From Coq Require Import Reals String List Arith Bool Lia Lra Permutation Sorted.
From Verif Require Import CBase Result Bits Spec OpSpec SQSpec GateModel LibProofs SafeProofs OperatorModel OperatorProofs SQModel SQProofs JWProofs FermiProofs RealOps FermiIndep PropSQ MeasSpec PropMeasure PropGrad.
From Verif Require QftProofs.
Import ListNotations.
Local Open Scope C_scope.

Definition key := (list nat * list nat)%type.
Definition key_dec (a b : key) : {a = b} + {a <> b}.
Proof. repeat decide equality. Defined.
Definition coefs (o : list fterm) (k : key) : C := Csum (fun t => if key_dec (fkey t) k then fcoef t else C0) o.
Definition nf (K : list key) (f : key -> C) : list fterm := map (fun k => ((f k, fst k), snd k)) K.
Lemma Csum_pick {A} (dec : forall a b : A, {a = b} + {a <> b}) (f : A -> C) a l : NoDup l -> In a l -> Csum (fun k => if dec a k then f k else C0) l = f a.
Proof.
  induction 1 as [|x l Hx ND IH]; intros Hi; [destruct Hi|]. rewrite Csum_cons. destruct Hi as [-> |Hi].
  - destruct (dec a a) as [_|N]; [|now destruct N]. rewrite Csum_zero; [ring|]. intros y Hy. destruct (dec a y) as [->|]; [contradiction|reflexivity].
  - destruct (dec a x) as [->|]; [contradiction|]. rewrite IH by exact Hi. ring.
Qed.
Lemma nf_act o K : NoDup K -> incl (map fkey o) K -> forall psi, fermi_act (nf K (coefs o)) psi == fermi_act o psi.
Proof.
  intros ND Hi psi I. rewrite !fermi_word. unfold nf. rewrite Csum_map. transitivity (Csum (fun k => Csum (fun t => if key_dec (fkey t) k then fcoef t * word (fst k) (snd k) psi I else C0) o) K).
  - apply Csum_ext. intros k _. unfold fcoef at 1, fcre, fann. cbn [fst snd]. unfold coefs. rewrite <- Csum_mul_r. apply Csum_ext. intros t _. destruct (key_dec (fkey t) k); [reflexivity|ring].
  - rewrite Csum_swap. apply Csum_ext. intros t Ht. rewrite (Csum_pick key_dec (fun k => fcoef t * word (fst k) (snd k) psi I)); [reflexivity|exact ND|]. apply Hi, in_map, Ht.
Qed.
Definition all_keys (a b : list fterm) : list key := nodup key_dec (map fkey a ++ map fkey b).
Lemma coefs_act a b : (forall k, coefs a k = coefs b k) -> forall psi, fermi_act a psi == fermi_act b psi.
Proof.
  intros E psi. set (K := all_keys a b). assert (ND : NoDup K) by apply NoDup_nodup.
  eapply seq_trans; [apply seq_sym, (nf_act a K ND); intros k Hk; apply nodup_In, in_app_iff; now left|]. replace (nf K (coefs a)) with (nf K (coefs b)) by (apply map_ext; intros k; now rewrite E). apply nf_act; [exact ND|]. intros k Hk. apply nodup_In, in_app_iff. now right.
Qed.
Lemma coefs_zero o k : ~ In k (map fkey o) -> coefs o k = C0.
Proof. intros H. unfold coefs. apply Csum_zero. intros t Ht. destruct (key_dec (fkey t) k) as [E|]; [|reflexivity]. exfalso. apply H. rewrite <- E. now apply in_map. Qed.
Lemma coefs_in o t : NoDup (map fkey o) -> In t o -> coefs o (fkey t) = fcoef t.
Proof.
  induction o as [|x o IH]; intros ND H; [destruct H|]. cbn [map] in ND. apply NoDup_cons_iff in ND. destruct ND as [N ND]. unfold coefs. rewrite Csum_cons. fold (coefs o (fkey t)). destruct H as [->|H].
  - destruct (key_dec (fkey t) (fkey t)) as [_|X]; [|now destruct X]. rewrite coefs_zero by exact N. ring.
  - destruct (key_dec (fkey x) (fkey t)) as [E|]; [exfalso; apply N; rewrite E; now apply in_map|]. rewrite IH by assumption. ring.
Qed.
Theorem act_coefs a b : Forall plain a -> Forall plain b -> (forall psi, fermi_act a psi == fermi_act b psi) -> forall k, coefs a k = coefs b k.
Proof.
  intros PA PB E k. set (K := all_keys a b). assert (ND : NoDup K) by apply NoDup_nodup.
  assert (IA : incl (map fkey a) K) by (intros x Hx; apply nodup_In, in_app_iff; now left). assert (IB : incl (map fkey b) K) by (intros x Hx; apply nodup_In, in_app_iff; now right).
  destruct (in_dec key_dec k K) as [Hk|Hk]; [|rewrite !coefs_zero; [reflexivity| |]; intros H; apply Hk; auto].
  assert (Z : Forall (fun t => fcoef t = C0) (nf K (fun k => coefs a k - coefs b k))).
  { apply fermi_independent.
    - unfold nf. rewrite Forall_map. apply Forall_forall. intros x Hx. apply nodup_In, in_app_iff in Hx. rewrite Forall_forall in PA, PB. destruct Hx as [Hx|Hx]; apply in_map_iff in Hx; destruct Hx as (t & <- & Ht); [specialize (PA t Ht)|specialize (PB t Ht)]; [exact PA|exact PB].
    - unfold nf. rewrite map_map. rewrite (map_ext _ (fun x => x)); [now rewrite map_id|]. intros x. unfold fkey, fcre, fann. cbn [fst snd]. now destruct x.
    - intros psi I. specialize (E psi I). rewrite <- (nf_act a K ND IA psi I), <- (nf_act b K ND IB psi I) in E. rewrite !fermi_word in *. unfold nf in *. rewrite Csum_map in *. unfold szero.
      transitivity (Csum (fun x => fcoef ((coefs a x, fst x), snd x) * word (fst x) (snd x) psi I) K + - C1 * Csum (fun x => fcoef ((coefs b x, fst x), snd x) * word (fst x) (snd x) psi I) K).
      + rewrite <- Csum_mul_l, <- Csum_add. apply Csum_ext. intros x _. unfold fcoef, fcre, fann. cbn [fst snd]. ring.
      + rewrite Csum_map in E. unfold fcre, fann in E. cbn [fst snd] in E. rewrite E. ring. }
  unfold nf in Z. rewrite Forall_map, Forall_forall in Z. specialize (Z k Hk). unfold fcoef in Z. cbn [fst snd] in Z. replace (coefs a k) with (coefs a k - coefs b k + coefs b k) by ring. rewrite Z. ring.
Qed.
(** conjugation *)
Lemma lads_conj d l psi : lads d l (sconj psi) == sconj (lads d l psi).
Proof.
  induction l as [|p l IH]; [apply seq_refl|]. intros I. change (lads d (p :: l) (sconj psi) I) with (lad d p (lads d l (sconj psi)) I). change (sconj (lads d (p :: l) psi) I) with (Cconj (lad d p (lads d l psi) I)). unfold lad. rewrite (IH (upd I p (negb d))). unfold sconj, sgn. destruct (Bool.eqb (bit I p) d), (odd_below I p); apply C_ext; cbn; ring.
Qed.
Lemma word_conj cre ann psi : word cre ann (sconj psi) == sconj (word cre ann psi).
Proof. unfold word. eapply seq_trans; [apply lads_ext, lads_conj|apply lads_conj]. Qed.
Definition conj_terms (o : list fterm) : list fterm := map (fun t => ((Cconj (fcoef t), fcre t), fann t)) o.
Lemma coefs_conj o k : coefs (conj_terms o) k = Cconj (coefs o k).
Proof. unfold coefs, conj_terms. rewrite Csum_map, Csum_conj. apply Csum_ext. intros t _. unfold fkey, fcre, fann. cbn [fst snd]. destruct (key_dec _ _); [reflexivity|apply C_ext; cbn; ring]. Qed.
Lemma conj_act o psi : fermi_act (conj_terms o) psi == sconj (fermi_act o (sconj psi)).
Proof.
  intros I. unfold sconj at 1. rewrite !fermi_word. unfold conj_terms. rewrite Csum_map, Csum_conj. apply Csum_ext. intros t _. rewrite (word_conj (fcre t) (fann t) psi I). unfold sconj, fcoef, fcre, fann. cbn [fst snd]. apply C_ext; cbn; ring.
Qed.
Lemma real_conj o : real_map (fermi_act o) -> forall psi, fermi_act (conj_terms o) psi == fermi_act o psi.
Proof. intros H psi I. rewrite (conj_act o psi I). unfold sconj at 1. rewrite (H psi I). unfold sconj. apply C_ext; cbn; ring. Qed.
Lemma conj_real o : (forall psi, fermi_act (conj_terms o) psi == fermi_act o psi) -> real_map (fermi_act o).
Proof. intros H psi I. pose proof (conj_act o psi I) as E. rewrite (H psi I) in E. unfold sconj at 1 in E. unfold sconj at 2. rewrite E. apply C_ext; cbn; ring. Qed.
Lemma plain_conj o : Forall plain o -> Forall plain (conj_terms o).
Proof. intros H. unfold conj_terms. rewrite Forall_map. eapply Forall_impl; [|exact H]. intros t Ht. exact Ht. Qed.
(** adjoints *)
Definition adj_terms (o : list fterm) : list fterm := map (fun t => ((Cconj (fcoef t), fann t), fcre t)) o.
Definition conserving (t : fterm) : Prop := length (fcre t) = length (fann t).
Definition within (n : nat) (t : fterm) : Prop := Forall (fun p => p < n)%nat (fcre t) /\ Forall (fun p => p < n)%nat (fann t).
Lemma coefs_adj o k : coefs (adj_terms o) k = Cconj (coefs o (snd k, fst k)).
Proof.
  unfold coefs, adj_terms. rewrite Csum_map, Csum_conj. apply Csum_ext. intros t _. unfold fkey, fcre, fann. cbn [fst snd]. destruct (key_dec _ _) as [E|N], (key_dec _ _) as [E2|N2]; try reflexivity.
  - exfalso. apply N2. destruct k. injection E as <- <-. reflexivity.
  - exfalso. apply N. injection E2 as -> ->. now destruct k.
  - apply C_ext; cbn; ring.
Qed.
Lemma plain_adj o : Forall plain o -> Forall plain (adj_terms o).
Proof. intros H. unfold adj_terms. rewrite Forall_map. eapply Forall_impl; [|exact H]. intros t [[A B] [D E]]. repeat split; assumption. Qed.
Lemma plain_dsorted l : descending l -> NoDup l -> SQPoolOps.dsorted l.
Proof.
  intros D. assert (TL : forall x l, descending (x :: l) -> descending l). { intros x m H i j d Hij. specialize (H (S i) (S j) d). cbn [length nth] in H. apply H. lia. }
  induction l as [|x l IH]; intros ND; [constructor|]. apply NoDup_cons_iff in ND. destruct ND as [N ND]. constructor; [apply IH; [now apply TL in D|exact ND]|].
  apply Forall_forall. intros k Hk. destruct (In_nth l k 0%nat Hk) as (i & Hi & E). pose proof (D 0%nat (S i) 0%nat) as L. cbn [length nth] in L. rewrite E in L. assert (k <> x) by (intros ->; contradiction). specialize (L ltac:(lia)). lia.
Qed.
Lemma adj_inner n o a b : Forall plain o -> Forall conserving o -> Forall (within n) o -> inner n a (fermi_act o b) = inner n (fermi_act (adj_terms o) a) b.
Proof.
  intros HP HC HW. rewrite (inner_conj n (fermi_act (adj_terms o) a) b), !inner_fermi. unfold adj_terms. rewrite Csum_map, Csum_conj. apply Csum_ext. intros t Ht. rewrite Forall_forall in HP, HC, HW. destruct (HP t Ht) as [[D1 D2] [N1 N2]]. destruct (HW t Ht) as [W1 W2]. specialize (HC t Ht).
  rewrite inner_ladder by assumption. rewrite (inner_ext n _ _ b b (ladder_rev (fcre t) (fann t) a (plain_dsorted _ D1 N1) (plain_dsorted _ D2 N2) HC) (seq_refl b)). rewrite (inner_conj n (ladder_act (fann t) (fcre t) a) b). unfold fcoef, fcre, fann. cbn [fst snd]. generalize (inner n b (ladder_act (snd t) (snd (fst t)) a)). intros x. apply C_ext; cbn; ring.
Qed.
Lemma within_mono n m t : (n <= m)%nat -> within n t -> within m t.
Proof. intros L [A B]. split; eapply Forall_impl; try eassumption; cbn beta; intros; lia. Qed.
Lemma list_bound (l : list nat) : exists m, Forall (fun p => p < m)%nat l.
Proof. induction l as [|x l [m IH]]; [exists 0%nat; constructor|]. exists (m + S x)%nat. constructor; [lia|]. eapply Forall_impl; [|exact IH]. cbn beta. intros. lia. Qed.
Lemma within_bound o : exists m, Forall (within m) o.
Proof.
  induction o as [|t o [m IH]]; [exists 0%nat; constructor|]. destruct (list_bound (fcre t)) as [a A]. destruct (list_bound (fann t)) as [b B]. exists (a + b + m)%nat. constructor; [split; eapply Forall_impl; try eassumption; cbn beta; intros; lia|]. eapply Forall_impl; [|exact IH]. intros x. apply within_mono. lia.
Qed.
Lemma herm_adj n o : Forall plain o -> Forall conserving o -> hermitian_map n (fermi_act o) -> forall psi, fermi_act (adj_terms o) psi == fermi_act o psi.
Proof.
  intros HP HC HH psi I. destruct (within_bound o) as [m HW]. set (N := (n + m + S I)%nat). assert (HI : (I < 2 ^ N)%nat) by (unfold N; pose proof (Nat.pow_gt_lin_r 2 (n + m + S I)); lia).
  assert (HK : inner N (ket I) (fermi_act (adj_terms o) psi) = inner N (ket I) (fermi_act o psi)).
  { rewrite (HH N (ket I) psi) by (unfold N; lia). rewrite (inner_conj N (ket I)), (inner_conj N (fermi_act o (ket I))). f_equal. symmetry. apply adj_inner; [exact HP|exact HC|]. eapply Forall_impl; [|exact HW]. intros t. apply within_mono. unfold N. lia. }
  rewrite !QftProofs.inner_ket in HK by exact HI. exact HK.
Qed.
Lemma adj_herm n o : Forall plain o -> Forall conserving o -> Forall (within n) o -> (forall psi, fermi_act (adj_terms o) psi == fermi_act o psi) -> hermitian_map n (fermi_act o).
Proof.
  intros HP HC HW E N a b L. rewrite (adj_inner N o a b HP HC); [apply inner_ext; [apply E|apply seq_refl]|]. eapply Forall_impl; [|exact HW]. intros t. apply within_mono, L.
Qed.
(** the terms above a threshold *)
Lemma coefs_kept th kept dropped k : (0 <= th)%R -> NoDup (map fkey (kept ++ dropped)) -> Forall (fun t => th < Cabs (fcoef t))%R kept -> Forall (fun t => Cabs (fcoef t) <= th)%R dropped ->
  coefs kept k = if Rltb th (Cabs (coefs (kept ++ dropped) k)) then coefs (kept ++ dropped) k else C0.
Proof.
  intros T ND HK HD. rewrite Forall_forall in HK, HD. destruct (in_dec key_dec k (map fkey (kept ++ dropped))) as [Hk|Hk].
  - apply in_map_iff in Hk. destruct Hk as (t & <- & Ht). rewrite (coefs_in _ t ND Ht). apply in_app_iff in Ht. destruct Ht as [Ht|Ht].
    + rewrite map_app in ND. apply NoDup_app_l in ND. rewrite (coefs_in _ t ND Ht). destruct (Rltb_spec th (Cabs (fcoef t))) as [_|X]; [reflexivity|]. specialize (HK t Ht). cbn beta in HK. lra.
    + destruct (Rltb_spec th (Cabs (fcoef t))) as [X|_]; [specialize (HD t Ht); cbn beta in HD; lra|]. apply coefs_zero. intros H. apply in_map_iff in H. destruct H as (t' & E & Ht'). apply in_split in Ht. destruct Ht as (l1 & l2 & ->). rewrite app_assoc, map_app in ND. cbn [map] in ND. apply NoDup_remove_2 in ND. apply ND. rewrite <- map_app, <- E. apply in_map. apply in_app_iff. left. apply in_app_iff. now left.
  - rewrite (coefs_zero _ k Hk). destruct (Rltb th (Cabs C0)); apply coefs_zero; intros H; apply Hk; rewrite map_app; apply in_app_iff; now left.
Qed.
Lemma Cabs_conj z : Cabs (Cconj z) = Cabs z.
Proof. unfold Cabs, Cnorm2. cbn. f_equal. ring. Qed.
Theorem simplify_keeps srt o n : legal_sort srt -> Forall PlainTerm o -> Forall conserving o -> Forall (within n) o ->
  exists kept dropped, sq_simplify srt o = Ok kept /\ fnegligible dropped /\ (forall psi, fermi_act o psi == sadd (fermi_act kept psi) (fermi_act dropped psi)) /\ Forall (within n) kept /\
    (real_map (fermi_act o) -> real_map (fermi_act kept) /\ Forall (fun t => Im (fcoef t) = 0%R) kept) /\ (hermitian_map n (fermi_act o) -> hermitian_map n (fermi_act kept)).
Proof.
  intros HS HO HC HW. destruct (sq_simplify_spec srt o HS) as (kept & dr & E & HCt & ND & HK & HD & HI & HA). exists kept, dr.
  assert (P : Forall (fun t => plain t /\ conserving t /\ within n t) (kept ++ dr)).
  { apply Forall_forall. intros t Ht. rewrite Forall_forall in HCt, HO, HC, HW. destruct (HI t Ht) as (t0 & H0 & P1 & P2). destruct (HO t0 H0) as (N1 & N2 & _). destruct (HW t0 H0) as [W1 W2]. specialize (HC t0 H0). split; [split; [apply HCt, Ht|split; [eapply Permutation_NoDup; [apply Permutation_sym, P1|exact N1]|eapply Permutation_NoDup; [apply Permutation_sym, P2|exact N2]]]|]. split.
    - unfold conserving. rewrite (Permutation_length P1), (Permutation_length P2). exact HC.
    - split; [eapply Permutation_Forall; [apply Permutation_sym, P1|exact W1]|eapply Permutation_Forall; [apply Permutation_sym, P2|exact W2]]. }
  assert (PA : Forall plain (kept ++ dr)) by (eapply Forall_impl; [|exact P]; cbn beta; intros t Ht; apply Ht). assert (PC : Forall conserving (kept ++ dr)) by (eapply Forall_impl; [|exact P]; cbn beta; intros t Ht; apply Ht). assert (PW : Forall (within n) (kept ++ dr)) by (eapply Forall_impl; [|exact P]; cbn beta; intros t Ht; apply Ht).
  assert (AA : forall psi, fermi_act (kept ++ dr) psi == fermi_act o psi) by (intros psi; eapply seq_trans; [apply fermi_app|apply seq_sym, HA]).
  assert (T : (0 <= 1e-12)%R) by lra. pose proof (fun k => coefs_kept 1e-12 kept dr k T ND HK HD) as CK.
  assert (PAk := PA). apply Forall_app in PAk. destruct PAk as [PAk _]. assert (PCk := PC). apply Forall_app in PCk. destruct PCk as [PCk _]. assert (PWk := PW). apply Forall_app in PWk. destruct PWk as [PWk _].
  split; [exact E|]. split; [split; [exact HD|rewrite map_app in ND; eapply NoDup_app_r, ND]|]. split; [exact HA|]. split; [exact PWk|]. split.
  - intros HR. assert (Er : forall k, Cconj (coefs (kept ++ dr) k) = coefs (kept ++ dr) k).
    { intros k. rewrite <- coefs_conj. apply act_coefs; [now apply plain_conj|exact PA|]. apply real_conj. intros psi I. rewrite (AA (sconj psi) I), (HR psi I). unfold sconj. now rewrite (AA psi I). }
    assert (Ek : forall k, Cconj (coefs kept k) = coefs kept k). { intros k. rewrite CK. destruct (Rltb _ _); [apply Er|apply C_ext; cbn; ring]. }
    split; [apply conj_real, coefs_act; intros k; rewrite coefs_conj; apply Ek|]. apply Forall_forall. intros t Ht. rewrite map_app in ND. apply NoDup_app_l in ND. rewrite <- (coefs_in kept t ND Ht). specialize (Ek (fkey t)). apply (f_equal Im) in Ek. cbn in Ek. lra.
  - intros HH. assert (Er : forall k, Cconj (coefs (kept ++ dr) (snd k, fst k)) = coefs (kept ++ dr) k).
    { intros k. rewrite <- coefs_adj. apply act_coefs; [now apply plain_adj|exact PA|]. apply (herm_adj n); [exact PA|exact PC|]. intros N a b L. rewrite (inner_ext N a a _ _ (seq_refl a) (AA b)), (inner_ext N _ _ b b (AA a) (seq_refl b)). apply HH, L. }
    apply adj_herm; [exact PAk|exact PCk|exact PWk|]. apply coefs_act. intros k. rewrite coefs_adj, !CK. rewrite <- (Er k), Cabs_conj. destruct (Rltb _ _); [reflexivity|apply C_ext; cbn; ring].
Qed.
(** the Jordan-Wigner image of a real Hermitian operator *)
Theorem jw_real_hermitian srt o n : legal_sort srt -> Forall PlainTerm o -> Forall conserving o -> Forall (within n) o -> real_map (fermi_act o) -> hermitian_map n (fermi_act o) ->
  exists kept fdropped q dropped, jw_transform srt false o = Ok (kept, q) /\ fnegligible fdropped /\ negligible dropped /\
    canonical_op q /\ NoDup (map snd q) /\ in_reg n q /\ Forall (fun t => Im (fst t) = 0%R) q /\ Forall (fun t => Nat.even (count_Y (snd t)) = true) q /\
    forall psi, fermi_act o psi == sadd (op_act q psi) (sadd (op_act dropped psi) (fermi_act fdropped psi)).
Proof.
  intros HS HO HC HW HR HH. destruct (simplify_keeps srt o n HS HO HC HW) as (kept & fd & E & HD & HA & PW & KR & KH). destruct (KR HR) as [RK _]. specialize (KH HH).
  pose proof (plain_ok false srt o HS HO kept E) as HT. unfold jw_transform. rewrite E. cbn [bind]. destruct (jw_terms_spec false kept [] (Forall_nil _) HT) as (qo & E1 & HP & HRg & HW1).
  rewrite E1. cbn [bind]. destruct (simplify_spec true qo HP) as (q & dr & E2 & HC2 & HN2 & HB & _ & HS2 & HR2 & HW2).
  rewrite E2. cbn [bind]. exists kept, fd, q, dr.
  assert (Act : forall psi, op_act (q ++ dr) psi == fermi_act kept psi).
  { intros psi I. rewrite <- (psum_fermi kept psi I). unfold op_act. rewrite Csum_app. specialize (HW1 psi I). rewrite (HW2 psi I) in HW1. unfold sadd in HW1.
    assert (HC3 := HC2). apply Forall_app in HC3. destruct HC3 as [C1' C2'].
    rewrite (wop_op q psi (canonical_distinct _ C1') I), (wop_op dr psi (canonical_distinct _ C2') I) in HW1. unfold op_act in HW1. rewrite HW1. unfold wop. rewrite Csum_nil. ring. }
  assert (HB2 : exists m, in_reg m (q ++ dr)).
  { clear. induction (q ++ dr) as [|t l [m IH]]; [exists 0%nat; constructor|]. destruct (list_bound (map gtarget (snd t))) as [b B]. rewrite Forall_map in B. exists (b + m)%nat. constructor; [eapply Forall_impl; [|exact B]; cbn beta; intros; lia|]. eapply Forall_impl; [|exact IH]. cbn beta. intros x Hx. eapply Forall_impl; [|exact Hx]. cbn beta. intros. lia. }
  destruct HB2 as [m HB2].
  pose proof (real_coeffs (q ++ dr) _ HC2 HN2 Act RK) as X1.
  assert (X2 : Forall (fun t => Cconj (fst t) = fst t) (q ++ dr)).
  { apply (hermitian_coeffs (n + m) (q ++ dr) (fermi_act kept)); [exact HC2|exact HN2| |exact Act|].
    - eapply Forall_impl; [|exact HB2]. cbn beta. intros x Hx. eapply Forall_impl; [|exact Hx]. cbn beta. intros. lia.
    - intros N a b L. apply KH. lia. }
  assert (HC3 := HC2). apply Forall_app in HC3. destruct HC3 as [HCq HCd]. rewrite map_app in HN2.
  apply Forall_app in X1, X2. destruct X1 as [X1 _]. destruct X2 as [X2 _]. specialize (HB eq_refl). rewrite Forall_forall in X1, X2, HB.
  split; [reflexivity|]. split; [exact HD|]. split; [split; [exact HS2|eapply NoDup_app_r, HN2]|]. split; [exact HCq|]. split; [eapply NoDup_app_l, HN2|]. split; [apply HR2, HRg; [constructor|exact PW]|]. split; [|split].
  - apply Forall_forall. intros t Ht. specialize (X2 t Ht). cbn beta in X2. apply (f_equal Im) in X2. cbn in X2. lra.
  - apply Forall_forall. intros t Ht. specialize (X1 t Ht). specialize (X2 t Ht). specialize (HB t Ht). cbn beta in *. rewrite X2 in X1. rewrite <- Nat.negb_odd. destruct (Nat.odd _); [|reflexivity]. exfalso.
    assert (Z : fst t = C0). { destruct (fst t) as [x y]. apply (f_equal Re) in X1 as A. apply (f_equal Im) in X1 as B. cbn in A, B. apply C_ext; cbn; lra. }
    rewrite Z in HB. unfold Cabs, Cnorm2 in HB. cbn in HB. replace (0 * 0 + 0 * 0)%R with 0%R in HB by ring. rewrite sqrt_0 in HB. lra.
  - intros psi I. rewrite (HA psi I). unfold sadd. rewrite <- (Act psi I). unfold op_act. rewrite Csum_app. ring.
Qed.
