From Coq Require Import Reals String List Arith NArith ZArith Bool Lia Lra Permutation Sorted.
From Verif Require Import CBase Result Bits Spec SQSpec SQModel SQPhase SQProofs OperatorModel SQPoolSpec SQPoolModel SQPoolProofs.
Import ListNotations.

(** ---- find_irrep ---- *)
Lemma find_irrep_acc irr l : forall acc, Forall (fun p => p / 2 < length irr) l ->
  foreach l (fun index irrep => do x <- vget irr (Nat.div index 2); Ok (N.lxor irrep x)) acc = Ok (N.lxor acc (total_irrep irr l)).
Proof.
  unfold total_irrep. induction l as [|p l IH]; intros acc HF; cbn [foreach map fold_right]; [rewrite N.lxor_0_r; reflexivity|]. inversion HF; subst.
  rewrite (vget_ok irr (p / 2) 0%N) by assumption. cbn [bind]. rewrite IH by assumption. rewrite N.lxor_assoc. reflexivity.
Qed.
Lemma find_irrep_ok irr l : Forall (fun p => p / 2 < length irr) l -> find_irrep irr l = Ok (total_irrep irr l).
Proof. intros H. unfold find_irrep. rewrite find_irrep_acc by exact H. rewrite N.lxor_0_l. reflexivity. Qed.
Lemma find_irrep_fail irr l : ~ Forall (fun p => p / 2 < length irr) l -> find_irrep irr l = Throw UB_oob.
Proof.
  unfold find_irrep. generalize 0%N. induction l as [|p l IH]; intros acc H; [exfalso; apply H; constructor|]. cbn [foreach].
  destruct (Nat.lt_ge_cases (p / 2) (length irr)) as [L|L].
  - rewrite (vget_ok irr (p / 2) 0%N L). cbn [bind]. apply IH. intros HF. apply H. constructor; assumption.
  - rewrite vget_oob by exact L. reflexivity.
Qed.

(** ---- occ_unocc ---- *)
Lemma occ_unocc_spec n X R : occ_unocc n (bitsr n X) (bitsr n R) =
  (orbitals (fun p => occ X p && occ R p) n, orbitals (fun p => occ X p && negb (occ R p)) n).
Proof.
  unfold occ_unocc. rewrite bitsr_length.
  enough (H : forall k a b, k <= n -> fold_left (fun (s : list nat * list nat) i => if nth i (bitsr n X) false then if nth i (bitsr n R) false then ((fst s ++ [n - i - 1])%list, snd s) else (fst s, (snd s ++ [n - i - 1])%list) else s) (seq (n - k) k) (a, b) =
     ((a ++ orbitals (fun p => occ X p && occ R p) k)%list, (b ++ orbitals (fun p => occ X p && negb (occ R p)) k)%list)).
  { specialize (H n [] [] (le_n n)). rewrite Nat.sub_diag in H. exact H. }
  induction k as [|k IH]; intros a b Hk; [cbn; rewrite !app_nil_r; reflexivity|].
  cbn [seq fold_left orbitals]. rewrite !bitsr_nth by lia. replace (n - 1 - (n - S k)) with k by lia. replace (n - (n - S k) - 1) with k by lia. replace (S (n - S k)) with (n - k) by lia.
  destruct (occ X k), (occ R k); cbn [andb negb fst snd]; rewrite IH by lia; rewrite <- ?app_assoc; reflexivity.
Qed.
Lemma orbitals_ext f g n : (forall p, p < n -> f p = g p) -> orbitals f n = orbitals g n.
Proof. induction n as [|n IH]; intros H; [reflexivity|]. cbn. rewrite H by lia. rewrite IH by (intros; apply H; lia). reflexivity. Qed.
Lemma orbitals_in f n p : In p (orbitals f n) <-> p < n /\ f p = true.
Proof.
  induction n as [|n IH]; cbn [orbitals]; [split; [intros []|lia]|]. destruct (f n) eqn:E; cbn [In]; rewrite IH.
  - split; [intros [<-|[A B]]; split; auto; lia|]. intros [A B]. destruct (Nat.eq_dec p n); [left; auto|right; split; auto; lia].
  - split; [intros [A B]; split; auto; lia|]. intros [A B]. split; auto. destruct (Nat.eq_dec p n); [subst; congruence|lia].
Qed.
Definition dsorted := StronglySorted (fun a b : nat => b < a).
Lemma orbitals_sorted f n : dsorted (orbitals f n).
Proof.
  unfold dsorted. induction n as [|n IH]; cbn; [constructor|]. destruct (f n); [|exact IH]. constructor; [exact IH|]. apply Forall_forall. intros p Hp. apply orbitals_in in Hp. lia.
Qed.

(** ---- sorted lists ---- *)
Lemma dsorted_nodup l : dsorted l -> NoDup l.
Proof. induction 1 as [|x l HS IH HF]; constructor; [|exact IH]. intros H. rewrite Forall_forall in HF. specialize (HF x H). lia. Qed.
Lemma descending_tail x l : descending (x :: l) -> descending l /\ forall y, In y l -> y <= x.
Proof.
  intros H. split.
  - intros i j d Hij. apply (H (S i) (S j) d). cbn; lia.
  - intros y Hy. apply (In_nth _ _ 0) in Hy. destruct Hy as (k & Hk & <-). apply (H 0 (S k) 0). cbn; lia.
Qed.
Lemma descending_unique l : forall l', Permutation l l' -> descending l -> dsorted l' -> l = l'.
Proof.
  induction l as [|x l IH]; intros l' HP HD HS; [apply Permutation_nil in HP; auto|].
  destruct l' as [|y l']; [symmetry in HP; apply Permutation_nil in HP; discriminate|]. destruct (descending_tail _ _ HD) as [HD' Hle]. apply StronglySorted_inv in HS. destruct HS as [HS' HFy].
  assert (x = y).
  { assert (H1 : In x (y :: l')) by (eapply Permutation_in; [exact HP|left; reflexivity]). assert (H3 : In y (x :: l)) by (eapply Permutation_in; [symmetry; exact HP|left; reflexivity]).
    rewrite Forall_forall in HFy. destruct H1 as [->|H1]; [reflexivity|]. specialize (HFy x H1). destruct H3 as [->|H3]; [reflexivity|]. specialize (Hle y H3). lia. }
  subst y. f_equal. apply IH; auto. eapply Permutation_cons_inv; exact HP.
Qed.
Lemma dsorted_inversions l : dsorted l -> inversions l = 0.
Proof.
  induction 1 as [|x l HS IH HF]; [reflexivity|]. cbn [inversions]. rewrite IH. replace (filter (fun y => x <? y) l) with (@nil nat); [reflexivity|].
  symmetry. clear - HF. induction HF as [|y l Hy HF IHl]; [reflexivity|]. cbn [filter]. destruct (Nat.ltb_spec x y); [lia|exact IHl].
Qed.
Lemma inversions_snoc l x : inversions (l ++ [x]) = inversions l + length (filter (fun y => y <? x) l).
Proof.
  induction l as [|y l IH]; [reflexivity|]. cbn [app inversions filter]. rewrite IH, filter_app, app_length. cbn [filter]. destruct (y <? x); cbn [length]; lia.
Qed.
Lemma rev_inversions l : dsorted l -> inversions (rev l) = Nat.div2 (length l * (length l - 1)).
Proof.
  induction 1 as [|x l HS IH HF]; [reflexivity|]. cbn [rev]. rewrite inversions_snoc, IH. replace (filter (fun y => y <? x) (rev l)) with (rev l).
  - rewrite rev_length. cbn [length]. set (n := length l). replace (S n - 1) with n by lia. rewrite !Nat.div2_div.
    assert (E : (S n * n) = n * (n - 1) + n * 2) by (destruct n; cbn; nia). rewrite E, Nat.div_add by lia. reflexivity.
  - symmetry. assert (HF' : Forall (fun y => y < x) (rev l)) by (apply Forall_rev, HF). clear - HF'. induction HF' as [|y r Hy HF IHr]; [reflexivity|]. cbn [filter]. apply Nat.ltb_lt in Hy. rewrite Hy, IHr. reflexivity.
Qed.
Lemma canon_single srt c l1 l2 d1 d2 : legal_sort srt -> dsorted d1 -> dsorted d2 -> Permutation l1 d1 -> Permutation l2 d2 ->
  canonical_order_single_term srt ((c, l1), l2) = Ok (((c * sgn (Nat.odd (inversions l1)) * sgn (Nat.odd (inversions l2)))%C, d1), d2).
Proof.
  intros HS D1 D2 P1 P2. assert (N1 : NoDup l1) by (eapply Permutation_NoDup; [symmetry; exact P1|apply dsorted_nodup, D1]). assert (N2 : NoDup l2) by (eapply Permutation_NoDup; [symmetry; exact P2|apply dsorted_nodup, D2]).
  destruct (sign_inversions srt l1 HS N1) as (a & E1 & HP1 & HD1). destruct (sign_inversions srt l2 HS N2) as (b & E2 & HP2 & HD2).
  assert (a = d1) by (apply descending_unique; auto; etransitivity; eauto). assert (b = d2) by (apply descending_unique; auto; etransitivity; eauto). subst a b.
  unfold canonical_order_single_term, fcre, fann, fcoef; cbn [fst snd]. rewrite E1. cbn [bind]. rewrite E2. reflexivity.
Qed.
Lemma excitation_op_spec srt hl pl : legal_sort srt -> dsorted hl -> dsorted pl -> length hl = length pl -> pl <> hl ->
  exists o, excitation_op srt hl pl = Ok o /\ Permutation o [((C1, pl), hl); ((- C1, hl), pl)]%C.
Proof.
  intros HS HH HP HL HN. unfold excitation_op, sq_simplify, sq_canonical_order, sq_add_term. cbn [app mapM].
  rewrite (canon_single srt _ pl hl pl hl HS HP HH) by reflexivity. cbn [bind].
  rewrite (canon_single srt _ (rev hl) (rev pl) hl pl HS HH HP) by (symmetry; apply Permutation_rev). cbn [bind].
  rewrite (dsorted_inversions pl HP), (dsorted_inversions hl HH), (rev_inversions hl HH), (rev_inversions pl HP), HL. cbn [Nat.odd Nat.even negb].
  set (b := Nat.odd _). change (Nat.odd 0) with false. change (sgn false) with C1.
  replace (C1 * C1 * C1)%C with C1 by ring. replace (- C1 * sgn b * sgn b)%C with (- C1)%C by (rewrite <- (Cmul_assoc _ (sgn b) (sgn b)) || idtac; destruct b; unfold sgn; ring).
  unfold fcre, fann, fcoef. cbn [fold_left fst snd sq_accumulate].
  assert (K1 : Rltb 1e-12 (Cabs C1) = true) by (apply Rltb_true; rewrite Cabs_C1; lra). assert (K2 : Rltb 1e-12 (Cabs (- C1)) = true) by (apply Rltb_true; rewrite Cabs_neg, Cabs_C1; lra).
  destruct (pair_ltb (hl, pl) (pl, hl)) eqn:E1; [|destruct (pair_ltb (pl, hl) (hl, pl)) eqn:E2].
  - cbn [filter snd fst]. rewrite K1, K2. cbn [map fst snd]. eexists. split; [reflexivity|]. apply perm_swap.
  - cbn [filter snd fst]. rewrite K1, K2. cbn [map fst snd]. eexists. split; [reflexivity|]. reflexivity.
  - exfalso. pose proof (pair_ltb_total _ _ E1 E2) as E. injection E as E _. congruence.
Qed.

(** ---- counting ---- *)
Lemma hole_count R D n : length (holes R D n) + length (orbitals (occ D) n) = length (particles R D n) + length (orbitals (occ R) n).
Proof. unfold holes, particles. induction n as [|n IH]; [reflexivity|]. cbn [orbitals]. destruct (occ R n), (occ D n); cbn [andb negb length]; lia. Qed.
Lemma electron_count D m : length (orbitals (occ D) (2 * m)) = electrons 0 m D + electrons 1 m D.
Proof.
  induction m as [|m IH]; [reflexivity|]. replace (2 * S m) with (S (S (2 * m))) by lia. cbn [orbitals electrons]. replace (2 * m + 0) with (2 * m) by lia. replace (2 * m + 1) with (S (2 * m)) by lia.
  destruct (occ D (2 * m)), (occ D (S (2 * m))); cbn [length]; lia.
Qed.
Lemma xor_count R D n : length (filter (fun b => b) (bitsr n (N.lxor R D))) = length (holes R D n) + length (particles R D n).
Proof.
  unfold holes, particles. induction n as [|n IH]; [reflexivity|]. cbn [bitsr orbitals filter]. assert (E : occ (N.lxor R D) n = xorb (occ R n) (occ D n)) by apply N.lxor_spec.
  rewrite E. destruct (occ R n), (occ D n); cbn [xorb andb negb length]; lia.
Qed.

(** ---- the loop ---- *)
Definition is_excitation (R D : N) (n : nat) (e : C * list fterm) : Prop := fst e = C1 /\ Permutation (snd e) (excitation R D n).
Definition selected (m : nat) (irr : list N) (max : nat) (R D : N) : bool :=
  (negb (Nat.eqb (length (holes R D (2 * m))) 0) && Nat.leb (length (holes R D (2 * m))) max &&
   N.eqb (total_irrep irr (holes R D (2 * m) ++ particles R D (2 * m))) 0)%bool.
Lemma det_body_spec srt sp m max D pool : legal_sort srt -> n_spinorb sp = 2 * m -> 2 * m <= 64 -> m <= length (orb_irreps sp) ->
  (forall s, s < 2 -> electrons s m D = electrons s m (ref_int sp)) ->
  if selected m (orb_irreps sp) max (ref_int sp) D
  then exists e, det_body srt sp (bitsr (2 * m) (ref_int sp)) max D pool = Ok (pool ++ [e])%list /\ is_excitation (ref_int sp) D (2 * m) e
  else det_body srt sp (bitsr (2 * m) (ref_int sp)) max D pool = Ok pool.
Proof.
  intros HS Hn Hm HI HE. set (R := ref_int sp) in *. unfold det_body. fold R. rewrite Hn. rewrite bits_str_spec by exact Hm. cbn [bind]. rewrite xor_count.
  assert (HL : length (particles R D (2 * m)) = length (holes R D (2 * m))).
  { pose proof (hole_count R D (2 * m)) as H. rewrite !electron_count in H. rewrite (HE 0), (HE 1) in H by lia. lia. }
  rewrite HL. replace (length (holes R D (2 * m)) + length (holes R D (2 * m))) with (2 * length (holes R D (2 * m))) by lia.
  assert (HOdd : Nat.odd (2 * length (holes R D (2 * m))) = false) by (rewrite Nat.odd_mul; reflexivity). rewrite HOdd.
  replace (2 * length (holes R D (2 * m)) / 2) with (length (holes R D (2 * m))) by (generalize (length (holes R D (2 * m))); intros z; rewrite (Nat.mul_comm 2 z); symmetry; apply Nat.div_mul; discriminate).
  rewrite occ_unocc_spec. cbn [fst snd].
  assert (EH : orbitals (fun p => occ (N.lxor R D) p && occ R p) (2 * m) = holes R D (2 * m)).
  { apply orbitals_ext. intros p _. unfold occ. rewrite N.lxor_spec. destruct (N.testbit R _), (N.testbit D _); reflexivity. }
  assert (EP : orbitals (fun p => occ (N.lxor R D) p && negb (occ R p)) (2 * m) = particles R D (2 * m)).
  { apply orbitals_ext. intros p _. unfold occ. rewrite N.lxor_spec. destruct (N.testbit R _), (N.testbit D _); reflexivity. }
  rewrite EH, EP. unfold selected.
  destruct (Nat.eqb_spec (length (holes R D (2 * m))) 0) as [L0|L0]; cbn [negb andb]; [reflexivity|]. destruct (Nat.leb (length (holes R D (2 * m))) max); cbn [andb]; [|reflexivity].
  rewrite find_irrep_ok.
  2:{ apply Forall_forall. intros p Hp. assert (p < 2 * m) by (apply in_app_or in Hp; destruct Hp as [Hp|Hp]; apply orbitals_in in Hp; lia). assert (p / 2 < m) by (apply Nat.div_lt_upper_bound; lia). lia. }
  cbn [bind]. destruct (N.eqb _ 0); [|reflexivity].
  destruct (excitation_op_spec srt (holes R D (2 * m)) (particles R D (2 * m)) HS (orbitals_sorted _ _) (orbitals_sorted _ _) (eq_sym HL)) as (o & EO & HO).
  { intros E. destruct (particles R D (2 * m)) as [|p r] eqn:E0; [rewrite <- E in L0; apply L0; reflexivity|].
    assert (H1 : In p (particles R D (2 * m))) by (rewrite E0; left; reflexivity). assert (H2 : In p (holes R D (2 * m))) by (rewrite <- E; left; reflexivity).
    apply orbitals_in in H1, H2. destruct (occ R p), (occ D p); cbn in *; destruct H1, H2; discriminate. }
  rewrite EO. cbn [bind]. exists (C1, o). split; [reflexivity|]. split; [reflexivity|exact HO].
Qed.
Lemma pool_loop srt sp m max : legal_sort srt -> n_spinorb sp = 2 * m -> 2 * m <= 64 -> m <= length (orb_irreps sp) -> forall dets pool,
  (forall D, In D dets -> forall s, s < 2 -> electrons s m D = electrons s m (ref_int sp)) ->
  exists added, foreach dets (det_body srt sp (bitsr (2 * m) (ref_int sp)) max) pool = Ok (pool ++ added)%list /\
    Forall2 (fun D e => is_excitation (ref_int sp) D (2 * m) e) (filter (selected m (orb_irreps sp) max (ref_int sp)) dets) added.
Proof.
  intros HS Hn Hm HI. induction dets as [|D dets IH]; intros pool HE; [exists []; rewrite app_nil_r; split; [reflexivity|constructor]|].
  cbn [foreach filter]. pose proof (det_body_spec srt sp m max D pool HS Hn Hm HI (HE D (or_introl eq_refl))) as HB. destruct (selected _ _ _ _ D).
  - destruct HB as (e & -> & He). cbn [bind]. destruct (IH (pool ++ [e])%list (fun D' H => HE D' (or_intror H))) as (ad & E & HF). exists (e :: ad). split; [rewrite E, <- app_assoc; reflexivity|constructor; assumption].
  - rewrite HB. cbn [bind]. apply IH. intros D' H. apply HE. right; exact H.
Qed.
Lemma filter_sorted {A} (R : A -> A -> Prop) f l : StronglySorted R l -> StronglySorted R (filter f l).
Proof.
  induction 1 as [|x l HS IH HF]; cbn; [constructor|]. destruct (f x); [|exact IH]. constructor; [exact IH|]. apply Forall_forall. intros y Hy. apply filter_In in Hy. rewrite Forall_forall in HF. apply HF, Hy.
Qed.
Lemma fill_pool_rank_spec srt sp m max pool : legal_sort srt -> n_spinorb sp = 2 * m -> 2 * m <= 64 -> m <= length (orb_irreps sp) ->
  exists added dets, fill_pool_rank srt sp max pool = Ok (pool ++ added)%list /\ StronglySorted N.lt dets /\
    (forall D, In D dets <-> Excited m (orb_irreps sp) max (ref_int sp) D /\ forall s, s < 2 -> (spin_string s m (ref_int sp) <= spin_string s m D)%N) /\
    Forall2 (fun D e => is_excitation (ref_int sp) D (2 * m) e) dets added.
Proof.
  intros HS Hn Hm HI. set (R := ref_int sp). unfold fill_pool_rank. fold R. rewrite Hn. rewrite bits_str_spec by exact Hm. cbn [bind].
  destruct (dets_spec m R) as (al & be & EA & EB & HD). cbv zeta in HD. destruct HD as [HSt HIn]. rewrite EA. cbn [bind]. rewrite EB. cbn [bind].
  set (dets := sortN _) in *. destruct (pool_loop srt sp m max HS Hn Hm HI dets pool) as (ad & E & HF).
  { intros D H s Hs. apply HIn in H. destruct H as (_ & H & _). apply H, Hs. }
  fold R in E, HF. exists ad, (filter (selected m (orb_irreps sp) max R) dets). split; [exact E|]. split; [apply filter_sorted, HSt|]. split; [|exact HF].
  intros D. rewrite filter_In, HIn. unfold reachable, Excited, selected. rewrite !andb_true_iff, negb_true_iff, Nat.eqb_neq, Nat.leb_le, N.eqb_eq.
  split.
  - intros ((A & B & D1) & (E1 & E2) & E3). split; [split; [exact A|]; split; [exact B|]; split; [lia|exact E3]|exact D1].
  - intros ((A & B & D1 & E1) & E2). split; [split; [exact A|]; split; [exact B|exact E2]|]. split; [split; lia|exact E1].
Qed.

(** ---- the reference integer ---- *)
Local Open Scope Z_scope.
Lemma wrap32_id z : - 2147483648 <= z < 2147483648 -> wrap32 z = z.
Proof. intros H. unfold wrap32. rewrite Z.mod_small by lia. lia. Qed.
Lemma to_u64_id z : 0 <= z < 18446744073709551616 -> to_u64 z = Z.to_N z.
Proof. intros H. unfold to_u64. rewrite Z.mod_small by lia. reflexivity. Qed.
(** sum of the occupied powers of two *)
Fixpoint det_of (k : nat) (ref : list Z) : N := match ref with [] => 0%N | o :: r => ((if Z.eqb o 0 then 0 else 2 ^ N.of_nat k) + det_of (S k) r)%N end.
Lemma fold_zero ref : forall x m, Forall (eq 0) ref -> (x < 18446744073709551616)%N ->
  fst (fold_left (fun s occupancy => (to_u64 (Z.of_N (fst s) + wrap32 (occupancy * snd s)), wrap32 (snd s * 2))%Z) ref (x, m)) = x.
Proof.
  induction ref as [|o r IH]; intros x m HF Hx; [reflexivity|]. cbn [fold_left fst snd]. inversion HF as [|? ? Ho HF']. rewrite <- Ho. rewrite Z.mul_0_l. rewrite wrap32_id by lia. rewrite Z.add_0_r, to_u64_id by lia.
  rewrite N2Z.id. apply IH; assumption.
Qed.
Lemma det_zero ref : forall k, Forall (eq 0) ref -> det_of k ref = 0%N.
Proof. induction ref as [|o r IH]; intros k HF; [reflexivity|]. inversion HF; subst. cbn. apply IH; assumption. Qed.
Lemma ref_int_acc ref : forall k x, Forall (fun o => o = 0 \/ o = 1) ref -> (forall i, (31 <= k + i)%nat -> nth i ref 0 = 0) -> (k <= 31)%nat -> (x < 2 ^ N.of_nat k)%N ->
  fst (fold_left (fun s occupancy => (to_u64 (Z.of_N (fst s) + wrap32 (occupancy * snd s)), wrap32 (snd s * 2))%Z) ref (x, wrap32 (2 ^ Z.of_nat k))) = (x + det_of k ref)%N.
Proof.
  induction ref as [|o r IH]; intros k x HF HZ Hk Hx; [cbn; lia|].
  assert (Hx64 : (x < 18446744073709551616)%N).
  { eapply N.lt_le_trans; [exact Hx|]. change 18446744073709551616%N with (2 ^ 64)%N. apply N.pow_le_mono_r; lia. }
  destruct (Nat.eq_dec k 31) as [->|Hk'].
  - assert (HA : Forall (eq 0) (o :: r)) by (apply Forall_forall; intros z Hz; apply (In_nth _ _ 0) in Hz; destruct Hz as (i & _ & <-); symmetry; apply HZ; lia).
    rewrite fold_zero by assumption. rewrite det_zero by assumption. lia.
  - assert (HP : 2 ^ Z.of_nat k <= 1073741824) by (change 1073741824 with (2 ^ 30); apply Z.pow_le_mono_r; lia). assert (HP0 : 0 < 2 ^ Z.of_nat k) by (apply Z.pow_pos_nonneg; lia).
    inversion HF as [|? ? Ho HF']. clear H H0. cbn [fold_left fst snd det_of]. rewrite (wrap32_id (2 ^ Z.of_nat k)) by lia.
    assert (E2 : 2 ^ Z.of_nat k * 2 = 2 ^ Z.of_nat (S k)) by (rewrite Nat2Z.inj_succ, Z.pow_succ_r by lia; lia). rewrite E2.
    assert (EZ : Z.of_N (2 ^ N.of_nat k) = 2 ^ Z.of_nat k) by (rewrite N2Z.inj_pow, nat_N_Z; reflexivity).
    rewrite (wrap32_id (o * 2 ^ Z.of_nat k)) by (destruct Ho; subst o; lia).
    assert (EX : to_u64 (Z.of_N x + o * 2 ^ Z.of_nat k) = (x + if Z.eqb o 0 then 0 else 2 ^ N.of_nat k)%N).
    { rewrite to_u64_id; [|destruct Ho; subst o; lia]. destruct Ho; subst o; cbn [Z.eqb]; lia. }
    rewrite EX. rewrite IH; [lia|exact HF'| |lia|].
    + intros i Hi. apply (HZ (S i)). lia.
    + rewrite Nat2N.inj_succ, N.pow_succ_r'. destruct (Z.eqb o 0); lia.
Qed.
Lemma det_of_bit ref : Forall (fun o => o = 0 \/ o = 1) ref -> forall k p, occ (det_of k ref) p = (Nat.leb k p && Z.eqb (nth (p - k) ref 0) 1)%bool.
Proof.
  intros HF. 
  assert (HD : forall ref, forall k, exists y, det_of k ref = (y * 2 ^ N.of_nat k)%N).
  { clear. induction ref as [|o r IH]; intros k; [exists 0%N; reflexivity|]. cbn [det_of]. destruct (IH (S k)) as (y & ->). rewrite Nat2N.inj_succ, N.pow_succ_r'.
    destruct (Z.eqb o 0); [exists (2 * y)%N; lia|exists (2 * y + 1)%N; lia]. }
  induction HF as [|o r Ho HF IH]; intros k p; cbn [det_of].
  - unfold occ. rewrite N.bits_0. destruct (p - k)%nat; destruct (Nat.leb k p); reflexivity.
  - destruct (HD r (S k)) as (y & Ey). specialize (IH (S k) p). rewrite Ey in *. rewrite Nat2N.inj_succ, N.pow_succ_r' in *.
    unfold occ in *. set (q := N.of_nat k) in *.
    assert (E : forall b : bool, N.testbit ((if b then 0 else 2 ^ q) + y * (2 * 2 ^ q)) (N.of_nat p) = if Nat.ltb p k then false else if Nat.eqb p k then negb b else N.testbit (y * (2 * 2 ^ q)) (N.of_nat p)).
    { intros b. replace ((if b then 0 else 2 ^ q) + y * (2 * 2 ^ q))%N with ((2 * y + b2N (negb b)) * 2 ^ q)%N by (destruct b; cbn [b2N negb]; lia).
      destruct (Nat.ltb_spec p k); [apply N.mul_pow2_bits_low; lia|]. rewrite N.mul_pow2_bits_high by lia.
      replace (y * (2 * 2 ^ q))%N with (2 * y * 2 ^ q)%N by lia. rewrite N.mul_pow2_bits_high by lia. destruct (Nat.eqb_spec p k).
      - subst p. rewrite N.sub_diag. destruct b; cbn [b2N negb]; [rewrite N.add_0_r; apply N.testbit_even_0|apply N.testbit_odd_0].
      - replace (N.of_nat p - q)%N with (N.succ (N.of_nat (p - k - 1))) by lia. destruct b; cbn [b2N negb]; [rewrite N.add_0_r; reflexivity|rewrite N.testbit_odd_succ, N.testbit_even_succ by lia; reflexivity]. }
    rewrite E, IH. clear E IH. destruct (Nat.ltb_spec p k), (Nat.leb_spec k p), (Nat.leb_spec (S k) p); try lia; cbn [andb]; try reflexivity.
    + destruct (Nat.eqb_spec p k); [lia|]. replace (p - k)%nat with (S (p - S k)) by lia. reflexivity.
    + assert (p = k) by lia. subst p. rewrite Nat.eqb_refl, Nat.sub_diag. cbn [nth]. destruct Ho; subst o; reflexivity.
Qed.
