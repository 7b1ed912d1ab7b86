(** C62: UCC.ansatz_circuit is the product of the exponentials of the selected pool operators. *)
From Coq Require Import Reals String List Arith NArith ZArith Bool Lia Lra Sorted Permutation.
From Verif Require Import CBase Result Bits Spec GateModel ComputerModel SafeProofs LibProofs SQSpec SQModel SQProofs SQPoolSpec SQPoolModel SQPoolOps GsdModel GsdProofs PyModel CompactModel CompactGsd ExpSpec ExpProofs AnsatzSpec AnsatzModel AnsatzJW AnsatzProofs AnsatzSa PropPool PropGsd.
From Verif Require PropSQ SaModel PropSa.
Import ListNotations.
Local Open Scope nat_scope.

(** the operator stored at position [top] of the pool *)
Definition op_at (pool : sqpool) (top : nat) : list fterm := snd (nth top pool (C0, [])).
(** exp(t1 A_top1), exp(t2 A_top2), ..., the first one acting first *)
Definition factors (qe : bool) (pool : sqpool) (tops : list nat) (ts : list R) : list (C * (state -> state)) :=
  map (fun x => (RtoC (snd x), act qe (op_at pool (fst x)))) (combine tops ts).
(** the circuit returned by the call is the product of the exponentials *)
Definition Prepares (call : res (list gate)) (l : list (C * (state -> state))) : Prop :=
  exists U, call = Ok U /\ forall psi, exp_product l psi (circ_act U psi).
(** the call divides every exponential into m steps *)
Definition trotter_steps (m : nat) (l : list (C * (state -> state))) : list (C * (state -> state)) :=
  concat (repeat (map (fun x => ((fst x * RtoC (/ INR m))%C, snd x)) l) m).
(** a pool operator a (T - T^dagger) whose index lists are those of an excitation of rank at most 6 *)
Definition Standard (a : R) (P H : list nat) (o : list fterm) : Prop := o = Antihermitian a P H /\ Excitable P H /\ length P <= 6 /\ (1e-8 < Rabs a)%R.
(** the shared-index case p < q < s in the order that the compact fermionic circuits do not support (C61) *)
Definition Supported (P H : list nat) : Prop := forall q p s, P = [s; q] -> H = [q; p] -> False.
(** amplitudes are zero or not negligible *)
Definition Sizable (t a : R) : Prop := t = 0%R \/ (1e-8 < Rabs (t * a))%R.

Lemma pool_foreach pool_type pool : pool_type <> "sa_SD"%string -> forall tops ts temp, length tops = length ts -> Forall (fun top => top < length pool) tops ->
  foreach (combine (map RtoC ts) tops) (fun ta temp => do e <- pool_item pool (snd ta); if String.eqb pool_type "sa_SD" then Ok (temp ++ map (sa_pair (fst ta)) (firstn (length (snd e) / 2) (snd e)))%list else Ok (temp ++ [(fst ta, snd e)])%list) temp
  = Ok (temp ++ map (fun x => (RtoC (snd x), op_at pool (fst x))) (combine tops ts))%list.
Proof.
  intros Nt. rewrite (proj2 (String.eqb_neq _ _) Nt). induction tops as [|top tops IH]; intros [|t ts] temp L F; try discriminate; [cbn [map combine foreach]; now rewrite app_nil_r|].
  inversion F as [|? ? F1 F2]; subst. cbn [map combine foreach fst snd]. unfold pool_item at 1, op_at at 1. rewrite (vget_ok pool top (C0, [])) by exact F1. cbn [bind]. rewrite IH; [now rewrite <- app_assoc|now injection L|exact F2].
Qed.
Lemma pool_items (Q : item -> Prop) pool tops ts : length tops = length ts ->
  Forall (fun x => exists a P H, op_at pool (fst x) = Antihermitian a P H /\ Q (mkItem (snd x) a P H)) (combine tops ts) ->
  exists items, map (fun x => (RtoC (snd x), op_at pool (fst x))) (combine tops ts) = map item_entry items /\ (forall qe, factors qe pool tops ts = map (item_factor qe) items) /\ Forall Q items.
Proof.
  intros _ F. unfold factors. induction F as [|x l (a & P & H & E & HQ) _ (items & E1 & E2 & E3)]; [exists []; repeat split; constructor|].
  exists (mkItem (snd x) a P H :: items). cbn [map]. unfold item_entry at 1, item_factor at 1. cbn [amp_ co_ up_ dn_]. rewrite E, E1. split; [reflexivity|]. split; [|now constructor]. intros qe. rewrite E2. reflexivity.
Qed.
Lemma steps_factors qe m items : steps qe m items = trotter_steps m (map (item_factor qe) items).
Proof.
  unfold steps, trotter_steps. rewrite map_map. do 2 f_equal. apply map_ext. intros x. unfold item_factor. cbn [fst snd]. f_equal. unfold Rdiv. apply C_ext; cbn; ring.
Qed.
Lemma pow_ranks k : k <= 12 -> (1e-12 * 2 ^ k <= 1e-8)%R.
Proof.
  intros L. assert (2 ^ k <= 2 ^ 12)%R by (apply Rle_pow; [lra|exact L]). assert (2 ^ 12 = 4096)%R by (cbn; ring). lra.
Qed.
Lemma standard_trotter t a P H o : Standard a P H o -> Sizable t a -> trotter_ok (mkItem t a P H).
Proof.
  intros (_ & HE & L & Ha) HT. unfold trotter_ok, big_enough. cbn [amp_ co_ up_ dn_]. pose proof HE as (_ & LL & _). assert (L12 : length P + length H <= 12) by lia. pose proof (pow_ranks _ L12) as G. split; [exact HE|]. split; [lia|]. split; [lra|]. destruct HT as [->|HT]; [now left|right; lra].
Qed.

(** ---- the two branches, for pools of operators a (T - T^dagger) ---- *)
Theorem C62_compact : forall srt sort pool_type qe m pool tops ts, pool_type <> "sa_SD"%string -> length tops = length ts -> Forall (fun top => top < length pool) tops ->
  Forall (fun top => exists a P H, op_at pool top = Antihermitian a P H /\ Excitable P H /\ (qe = true \/ Supported P H)) tops ->
  Prepares (ansatz_circuit srt sort pool_type true qe m pool tops (map RtoC ts)) (factors qe pool tops ts).
Proof.
  intros srt sort pt qe m pool tops ts Nt L F HO.
  destruct (pool_items (fun x => compact_ok qe (up_ x) (dn_ x)) pool tops ts L) as (items & E1 & E2 & E3).
  { apply Forall_forall. intros (top, t) I. apply in_combine_l in I. rewrite Forall_forall in HO. destruct (HO top I) as (a & P & H & E & HE & HS). exists a, P, H. split; [exact E|]. split; assumption. }
  unfold ansatz_circuit, ansatz_pool. rewrite (pool_foreach pt pool Nt tops ts [] L F). cbn [bind app]. rewrite E1, E2. exact (compact_items srt sort qe m items E3).
Qed.
Theorem C62_trotter : forall srt sort, legal_sort srt -> legal_term_sort sort -> forall pool_type qe m pool tops ts, pool_type <> "sa_SD"%string -> 1 <= m -> length tops = length ts -> Forall (fun top => top < length pool) tops ->
  Forall (fun x => exists a P H, Standard a P H (op_at pool (fst x)) /\ Sizable (snd x) a) (combine tops ts) ->
  Prepares (ansatz_circuit srt sort pool_type false qe m pool tops (map RtoC ts)) (trotter_steps m (factors qe pool tops ts)).
Proof.
  intros srt sort HS HT pt qe m pool tops ts Nt Hm L F HO.
  destruct (pool_items trotter_ok pool tops ts L) as (items & E1 & E2 & E3).
  { eapply Forall_impl; [|exact HO]. intros (top, t) (a & P & H & HS' & HZ). exists a, P, H. split; [apply HS'|exact (standard_trotter t a P H _ HS' HZ)]. }
  unfold ansatz_circuit, ansatz_pool. rewrite (pool_foreach pt pool Nt tops ts [] L F). cbn [bind app]. rewrite E1, E2, <- steps_factors.
  destruct (trotter_items srt sort qe m items HS HT Hm E3) as (U & E & _ & HU). exists U. split; [exact E|exact HU].
Qed.
(** with one Trotter step both branches prepare the same state *)
Lemma exp_product_unique l : forall psi phi phi', exp_product l psi phi -> exp_product l psi phi' -> phi == phi'.
Proof.
  induction l as [|[c A] l IH]; intros psi phi phi' H1 H2; cbn [exp_product] in *; [intros I; now rewrite (H1 I), (H2 I)|].
  destruct H1 as (chi & X1 & Y1), H2 as (chi' & X2 & Y2). assert (chi = chi') by (apply FunctionalExtensionality.functional_extensionality; exact (is_exp_unique _ _ _ _ _ X1 X2)). subst chi'. now apply (IH chi).
Qed.
Lemma one_step l : trotter_steps 1 l = l.
Proof. unfold trotter_steps. cbn [repeat concat]. rewrite app_nil_r. rewrite <- (map_id l) at 2. apply map_ext. intros [c A]. cbn [fst snd]. f_equal. apply C_ext; cbn; field. Qed.
Theorem C62_branches_agree : forall srt sort, legal_sort srt -> legal_term_sort sort -> forall pool_type qe pool tops ts, pool_type <> "sa_SD"%string -> length tops = length ts -> Forall (fun top => top < length pool) tops ->
  Forall (fun x => exists a P H, Standard a P H (op_at pool (fst x)) /\ Sizable (snd x) a /\ (qe = true \/ Supported P H)) (combine tops ts) ->
  exists U U', ansatz_circuit srt sort pool_type true qe 1 pool tops (map RtoC ts) = Ok U /\ ansatz_circuit srt sort pool_type false qe 1 pool tops (map RtoC ts) = Ok U' /\ forall psi, circ_act U psi == circ_act U' psi.
Proof.
  intros srt sort HS HT pt qe pool tops ts Nt L F HO.
  destruct (C62_compact srt sort pt qe 1 pool tops ts Nt L F) as (U & E & HU).
  { rewrite Forall_forall in *. intros top I. assert (It : exists t, In (top, t) (combine tops ts)).
    { clear - I L. revert ts L. induction tops as [|x tops IH]; intros [|t ts] L; try discriminate; [destruct I|]. destruct I as [->|I]; [exists t; now left|]. injection L as L. destruct (IH I ts L) as (u & Iu). exists u. now right. }
    destruct It as (t & It). destruct (HO _ It) as (a & P & H & (E & HE & _) & _ & Hs). exists a, P, H. auto. }
  destruct (C62_trotter srt sort HS HT pt qe 1 pool tops ts Nt (le_n 1) L F) as (U' & E' & HU').
  { eapply Forall_impl; [|exact HO]. intros x (a & P & H & H1 & H2 & _). exists a, P, H. auto. }
  exists U, U'. split; [exact E|]. split; [exact E'|]. intros psi. rewrite one_step in HU'. exact (exp_product_unique _ _ _ _ (HU psi) (HU' psi)).
Qed.

(** ---- the pools that SQOpPool.fill_pool builds ---- *)
(** what both branches return for every choice of operators of the pool and of real amplitudes *)
Definition AnsatzCorrect (srt : sorter) (sort : term_sorter) (pool_type : string) (pool : sqpool) : Prop :=
  forall qe m tops ts, length tops = length ts -> Forall (fun top => top < length pool) tops ->
    Prepares (ansatz_circuit srt sort pool_type true qe m pool tops (map RtoC ts)) (factors qe pool tops ts) /\
    (1 <= m -> Forall (fun t => t = 0 \/ 1e-8 < Rabs t)%R ts ->
     Prepares (ansatz_circuit srt sort pool_type false qe m pool tops (map RtoC ts)) (trotter_steps m (factors qe pool tops ts))).
Lemma unit_pool srt sort t pool : legal_sort srt -> legal_term_sort sort -> t <> "sa_SD"%string ->
  (forall e, In e pool -> exists a P H, (a = 1 \/ a = -1)%R /\ snd e = Antihermitian a P H /\ Excitable P H /\ length P <= 6 /\ Supported P H) -> AnsatzCorrect srt sort t pool.
Proof.
  intros HS HT Nt HP qe m tops ts L F.
  assert (G : forall top, In top tops -> exists a P H, (a = 1 \/ a = -1)%R /\ op_at pool top = Antihermitian a P H /\ Excitable P H /\ length P <= 6 /\ Supported P H).
  { intros top I. rewrite Forall_forall in F. apply HP. apply nth_In, F, I. }
  split.
  - apply C62_compact; try assumption. apply Forall_forall. intros top I. destruct (G top I) as (a & P & H & _ & E & HE & _ & Hs). exists a, P, H. auto.
  - intros Hm Ht. apply C62_trotter; try assumption. apply Forall_forall. intros (top, t0) I. destruct (G top (in_combine_l _ _ _ _ I)) as (a & P & H & Ha & E & HE & L6 & Hs).
    apply in_combine_r in I. rewrite Forall_forall in Ht. exists a, P, H. cbn [fst snd]. assert (A1 : Rabs a = 1%R) by (destruct Ha as [-> | ->]; [apply Rabs_R1|rewrite Rabs_left; lra]). split; [split; [exact E|]; split; [exact HE|]; split; [exact L6|lra]|].
    destruct (Ht t0 I) as [Z|Z]; [left; exact Z|right]. rewrite Rabs_mult, A1. lra.
Qed.
Theorem C62_excitation_pools : forall srt sort, legal_sort srt -> legal_term_sort sort -> forall m ref R irreps t max, Reference m ref R -> FitsInt ref -> Irreps m irreps -> In (t, max) pool_types ->
  exists sp pool, set_orb_spaces ref irreps = Ok sp /\ SaModel.fill_pool srt sp t [] = Ok pool /\ AnsatzCorrect srt sort t pool.
Proof.
  intros srt sort HS HT m ref R irr t max HR HF HI Ht. destruct (C32_pool_contents srt HS m ref R irr t max HR HF HI Ht) as (sp & pool & dets & E & EP & _ & HD & F2). exists sp, pool. split; [exact E|].
  assert (Tn : t <> "sa_SD"%string /\ t <> "GSD"%string /\ max <= 6). { cbn in Ht. repeat (destruct Ht as [Ht|Ht]; [injection Ht as <- <-; split; [discriminate|]; split; [discriminate|lia]|]). destruct Ht. }
  destruct Tn as (T1 & T2 & T3). split; [unfold SaModel.fill_pool; rewrite (proj2 (String.eqb_neq _ _) T1), (proj2 (String.eqb_neq _ _) T2); exact EP|]. apply unit_pool; try assumption.
  assert (HX : forall D (e : C * list fterm), In D dets -> Permutation (snd e) (excitation R D (2 * m)) -> exists a P H, (a = 1 \/ a = -1)%R /\ snd e = Antihermitian a P H /\ Excitable P H /\ length P <= 6 /\ Supported P H).
  { intros D e ID Pm. apply HD in ID. destruct ID as ((_ & HE & HL & _) & _). set (Hs := holes R D (2 * m)) in *. set (Ps := particles R D (2 * m)) in *.
    assert (LL : length Ps = length Hs). { pose proof (hole_count R D (2 * m)) as HC. rewrite !electron_count, !HE in HC by lia. fold Hs Ps in HC. lia. }
    assert (Ds : forall k, In k Ps -> ~ In k Hs). { intros k K1 K2. apply orbitals_in in K1, K2. destruct K1 as (_ & K1), K2 as (_ & K2). destruct (occ R k), (occ D k); discriminate. }
    assert (X1 : Excitable Ps Hs). { split; [intros K; rewrite K in LL; change (length (@nil nat)) with 0 in LL; lia|]. split; [exact LL|]. split; [apply orbitals_sorted|]. split; [apply orbitals_sorted|]. now left. }
    unfold excitation in Pm. fold Hs Ps in Pm. apply Permutation_sym, Permutation_length_2_inv in Pm.
    destruct Pm as [Pm|Pm].
    - exists 1%R, Ps, Hs. split; [now left|]. split; [rewrite Pm; unfold Antihermitian; repeat f_equal; apply C_ext; cbn; ring|]. split; [exact X1|]. split; [lia|]. intros q p s E1 E2. apply (Ds q); [rewrite E1; cbn; tauto|rewrite E2; cbn; tauto].
    - exists (-1)%R, Hs, Ps. split; [now right|]. split; [rewrite Pm; unfold Antihermitian; replace (RtoC (- -1)) with C1 by (apply C_ext; cbn; ring); replace (RtoC (-1)) with (- C1)%C by (apply C_ext; cbn; ring); reflexivity|]. split; [now apply excitable_swap|]. split; [lia|]. intros q p s E1 E2. apply (Ds q); [rewrite E2; cbn; tauto|rewrite E1; cbn; tauto]. }
  intros e Ie. clear - F2 HX Ie. induction F2 as [|D e' dets pool (_ & Pm) F2 IH]; [destruct Ie|]. destruct Ie as [<-|Ie]; [apply (HX D); [now left|exact Pm]|apply IH; [intros D' e0 ID; apply HX; now right|exact Ie]].
Qed.
Theorem C62_gsd_pool : forall srt sort, legal_sort srt -> legal_term_sort sort -> forall m ref irreps, length ref = 2 * m -> Irreps m irreps ->
  exists sp pool, set_orb_spaces ref irreps = Ok sp /\ SaModel.fill_pool srt sp "GSD" [] = Ok pool /\ AnsatzCorrect srt sort "GSD" pool.
Proof.
  intros srt sort HS HT m ref irr HL HI. destruct (C59_gsd_pool srt HS m ref irr HL HI) as (sp & pool & E & EP & Ha & _). exists sp, pool. split; [exact E|]. split; [exact EP|]. apply unit_pool; try assumption; [discriminate|].
  assert (Hm : n_spinorb sp = 2 * m /\ m <= length (orb_irreps sp)).
  { unfold set_orb_spaces in E. rewrite HL in E. replace (Nat.odd (2 * m)) with false in E by (rewrite Nat.odd_mul; reflexivity). apply (f_equal (fun r => match r with Ok x => x | Throw _ => sp end)) in E. cbn beta iota in E. rewrite <- E. cbn [n_spinorb orb_irreps]. split; [reflexivity|]. destruct HI as [->|HI]; [rewrite div_even, repeat_length; lia|]. destruct irr; [cbn [length] in *; lia|exact HI]. }
  destruct (gsd_keys srt sp m HS (proj1 Hm) (proj2 Hm) []) as (added & K & E' & F & _ & Ki & Hk). rewrite EP in E'. injection E' as ->.
  intros e Ie. assert (X : exists k, In k K /\ Rep e k) by (clear - F Ie; induction F as [|e' x l l' R F IH]; [destruct Ie|]; destruct Ie as [<-|Ie]; [exists x; split; [now left|exact R]|]; destruct (IH Ie) as (k & Ik & Rk); exists k; split; [now right|exact Rk]).
  destruct X as (k & Ik & (_ & sg & U & Es)). pose proof (Ki k Ik) as Ek. pose proof Ik as Ig. rewrite <- Ek in Ig. apply Hk in Ig. destruct k as (P, H). cbn [fst snd] in *. destruct Ig as (LP & LH & Ne & DP & DH & _).
  exists (Re sg), P, H. split; [destruct U as [-> | ->]; [now left|right; cbn; ring]|]. split; [rewrite Es; unfold Antihermitian; destruct U as [-> | ->]; repeat f_equal; apply C_ext; cbn; ring|]. split.
  - split; [intros ->; cbn in LP; lia|]. split; [now symmetry|]. split; [exact DP|]. split; [exact DH|]. destruct LP as [LP|LP].
    + rewrite LP in LH. destruct P as [|p [|]]; try discriminate. destruct H as [|h [|]]; try discriminate. left. intros x [<-|[]] [E0|[]]. congruence.
    + rewrite LP in LH. destruct P as [|p0 [|p1 [|]]]; try discriminate. destruct H as [|h0 [|h1 [|]]]; try discriminate. inversion DP as [|? ? _ F1]; subst. inversion F1 as [|? ? L1 _]; subst. inversion DH as [|? ? _ F3]; subst. inversion F3 as [|? ? L2 _]; subst.
      destruct (Nat.eq_dec p0 h0) as [->|N1]; [right; exists h0, p1, h1; repeat split; try lia; try tauto; intros ->; now apply Ne|].
      destruct (Nat.eq_dec p0 h1) as [->|N2]; [right; exists h1, p1, h0; repeat split; try lia; tauto|].
      destruct (Nat.eq_dec p1 h0) as [->|N3]; [right; exists h0, p0, h1; repeat split; try lia; tauto|].
      destruct (Nat.eq_dec p1 h1) as [->|N4]; [right; exists h1, p0, h0; repeat split; try lia; tauto|].
      left. intros x [<-|[<-|[]]] [E0|[E0|[]]]; congruence.
  - split; [lia|]. intros q p s -> ->. inversion DP as [|? ? _ F1]; subst. inversion F1 as [|? ? L1 _]; subst.
    unfold key, pair_ltb in Ek. cbn [fst snd vec_ltb] in Ek. destruct (Nat.ltb_spec s q); [lia|]. destruct (Nat.ltb_spec q s); [|lia]. injection Ek as E1 _ _ _. lia.
Qed.
(** ---- the spin-adapted pool ---- *)
(** exp(t A) for the excitations A an operator is made of, one after the other *)
Definition split_factors (qe : bool) (parts : list (list part)) (tops : list nat) (ts : list R) : list (C * (state -> state)) :=
  flat_map (fun x => map (fun p => (RtoC (snd x), act qe (part_op p))) (nth (fst x) parts [])) (combine tops ts).
Lemma sa_foreach pool parts : Forall2 (fun e ps => firstn (length (snd e) / 2) (snd e) = map part_term ps) pool parts -> forall tops ts temp, length tops = length ts -> Forall (fun top => top < length pool) tops ->
  foreach (combine (map RtoC ts) tops) (fun ta temp => do e <- pool_item pool (snd ta); if String.eqb "sa_SD" "sa_SD" then Ok (temp ++ map (sa_pair (fst ta)) (firstn (length (snd e) / 2) (snd e)))%list else Ok (temp ++ [(fst ta, snd e)])%list) temp
  = Ok (temp ++ map item_entry (flat_map (fun x => map (fun p => mkItem (snd x) (fst (fst p)) (snd (fst p)) (snd p)) (nth (fst x) parts [])) (combine tops ts)))%list.
Proof.
  intros F2. rewrite String.eqb_refl. induction tops as [|top tops IH]; intros [|t ts] temp L F; try discriminate; [cbn [map combine foreach flat_map]; now rewrite app_nil_r|].
  inversion F as [|? ? F1 F3]; subst. cbn [map combine foreach fst snd]. unfold pool_item at 1. rewrite (vget_ok pool top (C0, [])) by exact F1. cbn [bind].
  assert (E : firstn (length (snd (nth top pool (C0, []))) / 2) (snd (nth top pool (C0, []))) = map part_term (nth top parts [])).
  { clear - F2 F1. revert top F1. induction F2 as [|e ps pool parts H F2 IH]; intros top L; [cbn in L; lia|]. destruct top as [|top]; [exact H|]. cbn [nth]. apply IH. cbn in L. lia. }
  rewrite E, IH; [|now injection L|exact F3]. rewrite <- app_assoc. do 2 f_equal. cbn [flat_map fst snd]. rewrite map_app, !map_map. f_equal. apply map_ext. intros [[a P] H]. unfold sa_pair, item_entry, part_term, Antihermitian, sq_add_term, fcoef, fcre, fann. cbn [amp_ co_ up_ dn_ fst snd app]. do 3 f_equal. unfold RtoC. f_equal. f_equal. f_equal. apply C_ext; cbn; ring.
Qed.
(** every operator of the pool is the sum of a_k (T_k - T_k^dagger) over its parts, and both
    branches exponentiate the parts one after the other *)
Theorem C62_sa_pool : forall srt sort, legal_sort srt -> legal_term_sort sort -> forall m ref R irreps, Reference m ref R -> Irreps m irreps -> electrons 0 m R = electrons 1 m R ->
  exists sp pool parts, set_orb_spaces ref irreps = Ok sp /\ SaModel.fill_pool srt sp "sa_SD" [] = Ok pool /\ Forall2 (fun e ps => Permutation (snd e) (flat_map part_op ps)) pool parts /\
    forall qe n tops ts, length tops = length ts -> Forall (fun top => top < length pool) tops ->
      Prepares (ansatz_circuit srt sort "sa_SD" true qe n pool tops (map RtoC ts)) (split_factors qe parts tops ts) /\
      (1 <= n -> Forall (fun t => t = 0 \/ 1e-8 < Rabs t)%R ts ->
       Prepares (ansatz_circuit srt sort "sa_SD" false qe n pool tops (map RtoC ts)) (trotter_steps n (split_factors qe parts tops ts))).
Proof.
  intros srt sort HS HT m ref R irr HR HI Eq. destruct (PropSa.C60_sa_pool srt HS m ref R irr HR HI) as (sp & E & _ & HP). destruct (HP Eq) as (pool & labels & EP & _). clear HP.
  destruct (PropSa.counts m ref R irr sp HR E) as (Ca & _). pose proof (sa_pool_ops srt sp _ pool HS Ca EP) as SO.
  assert (X : exists parts, Forall2 (fun e ps => firstn (length (snd e) / 2) (snd e) = map part_term ps /\ Permutation (snd e) (flat_map part_op ps) /\
    Forall (fun x => Excitable (snd (fst x)) (snd x) /\ (forall k, In k (snd (fst x)) -> ~ In k (snd x)) /\ length (snd (fst x)) <= 2 /\ (1 / 60 <= Rabs (fst (fst x)))%R) ps) pool parts).
  { clear - SO. induction SO as [|e pool He _ (parts & IH)]; [exists []; constructor|]. destruct (sa_parts _ _ _ He) as (ps & P1 & P2 & P3). exists (ps :: parts). constructor; auto. }
  destruct X as (parts & F2). exists sp, pool, parts. split; [exact E|]. split; [exact EP|]. split; [clear - F2; induction F2; constructor; tauto|].
  intros qe n tops ts L F.
  assert (F1 : Forall2 (fun e ps => firstn (length (snd e) / 2) (snd e) = map part_term ps) pool parts) by (clear - F2; induction F2; constructor; tauto).
  set (items := flat_map (fun x => map (fun p : part => mkItem (snd x) (fst (fst p)) (snd (fst p)) (snd p)) (nth (fst x) parts [])) (combine tops ts)).
  assert (EI : split_factors qe parts tops ts = map (item_factor qe) items).
  { unfold split_factors, items. induction (combine tops ts) as [|x l IH]; [reflexivity|]. cbn [flat_map]. rewrite map_app, IH, map_map. f_equal. }
  assert (HQ : forall x, In x items -> Excitable (up_ x) (dn_ x) /\ (forall k, In k (up_ x) -> ~ In k (dn_ x)) /\ length (up_ x) <= 2 /\ (1 / 60 <= Rabs (co_ x))%R /\ In (amp_ x) ts).
  { intros x I. unfold items in I. apply in_flat_map in I. destruct I as ((top, t) & It & I). apply in_map_iff in I. destruct I as (p & <- & Ip). cbn [fst snd] in *. cbn [amp_ co_ up_ dn_]. apply in_combine_r in It.
    assert (G : Forall (fun x => Excitable (snd (fst x)) (snd x) /\ (forall k, In k (snd (fst x)) -> ~ In k (snd x)) /\ length (snd (fst x)) <= 2 /\ (1 / 60 <= Rabs (fst (fst x)))%R) (nth top parts [])).
    { clear - F2. revert top. induction F2 as [|e ps pool parts H F2 IH]; intros [|top]; try (constructor; fail); [apply H|apply IH]. }
    rewrite Forall_forall in G. destruct (G p Ip) as (G1 & G2 & G3 & G4). auto. }
  unfold ansatz_circuit, ansatz_pool. rewrite (sa_foreach pool parts F1 tops ts [] L F). cbn [bind app]. fold items. rewrite EI. split.
  - apply compact_items. apply Forall_forall. intros x I. destruct (HQ x I) as (Q1 & Q2 & _). split; [exact Q1|]. right. intros q p s E1 E2. apply (Q2 q); [rewrite E1; cbn; tauto|rewrite E2; cbn; tauto].
  - intros Hn Ht. rewrite <- steps_factors. destruct (trotter_items srt sort qe n items HS HT Hn) as (U & EU & _ & HU).
    + apply Forall_forall. intros x I. destruct (HQ x I) as (Q1 & _ & Q3 & Q4 & Q5). rewrite Forall_forall in Ht. pose proof Q1 as (_ & LL & _). assert (L4 : length (up_ x) + length (dn_ x) <= 4) by lia.
      assert (P4 : (2 ^ (length (up_ x) + length (dn_ x)) <= 16)%R). { assert (P : (2 ^ (length (up_ x) + length (dn_ x)) <= 2 ^ 4)%R) by (apply Rle_pow; [lra|exact L4]). assert (2 ^ 4 = 16)%R by (cbn; ring). lra. }
      split; [exact Q1|]. split; [lia|]. unfold big_enough. split; [lra|]. destruct (Ht _ Q5) as [Z|Z]; [now left|right]. rewrite Rabs_mult. nra.
    + exists U. auto.
Qed.
(** ---- errors ---- *)
Theorem C62_index : forall srt sort pool_type compact qe m pool t top, length pool <= top -> ansatz_circuit srt sort pool_type compact qe m pool [top] [t] = Throw UB_oob.
Proof.
  intros. unfold ansatz_circuit, ansatz_pool. cbn [combine foreach fst snd]. unfold pool_item, vget. rewrite (proj2 (nth_error_None pool top)) by assumption. reflexivity.
Qed.
Theorem C62_one_term : forall srt sort pool_type qe m pool t top c x, pool_type <> "sa_SD"%string -> nth_error pool top = Some (c, [x]) -> ansatz_circuit srt sort pool_type true qe m pool [top] [t] = Throw (PyError "IndexError").
Proof.
  intros srt sort pt qe m pool t top c x Nt E. unfold ansatz_circuit, ansatz_pool. cbn [combine foreach fst snd]. unfold pool_item, vget. rewrite E. cbn [bind snd]. rewrite (proj2 (String.eqb_neq _ _) Nt). reflexivity.
Qed.
Theorem C62_order_type : forall srt sort order_type combine_like qe pool, order_type <> "unique_lex"%string -> order_type <> "commuting_grp_lex"%string -> get_qubit_operator srt sort order_type combine_like qe pool = Throw InvalidArg.
Proof. intros srt sort ot cb qe pool N1 N2. unfold get_qubit_operator. rewrite (proj2 (String.eqb_neq _ _) N1), (proj2 (String.eqb_neq _ _) N2). reflexivity. Qed.

(** ---- the contract of std::sort is satisfiable ---- *)
Fixpoint tins {A} (lt : A -> A -> bool) (x : A) (l : list A) : list A :=
  match l with [] => [x] | y :: r => if lt x y then x :: l else y :: tins lt x r end.
Definition tsort : term_sorter := fun lt l => fold_right (tins lt) [] l.
Lemma tins_perm {A} (lt : A -> A -> bool) x l : Permutation (tins lt x l) (x :: l).
Proof. induction l as [|y r IH]; [reflexivity|]. cbn [tins]. destruct (lt x y); [reflexivity|]. rewrite IH. apply perm_swap. Qed.
Lemma weak_le {A} (lt : A -> A -> bool) l : strict_weak lt l -> forall x y z, In x l -> In y l -> In z l -> lt y x = false -> lt z y = false -> lt z x = false.
Proof.
  intros (W1 & W2 & W3) x y z Ix Iy Iz H1 H2. destruct (lt z x) eqn:E; [|reflexivity]. destruct (lt x y) eqn:E1; [rewrite (W2 z x y Iz Ix Iy E E1) in H2; discriminate|].
  destruct (lt y z) eqn:E2; [rewrite (W2 y z x Iy Iz Ix E2 E) in H1; discriminate|]. destruct (W3 x y z Ix Iy Iz E1 H1 E2 H2) as (_ & K). congruence.
Qed.
Lemma tins_sorted {A} (lt : A -> A -> bool) l : strict_weak lt l -> forall x r, In x l -> incl r l -> StronglySorted (fun x y => lt y x = false) r -> StronglySorted (fun x y => lt y x = false) (tins lt x r).
Proof.
  intros W x r Ix. induction r as [|y r IH]; intros Ic S; [repeat constructor|]. inversion S as [|? ? S' F]; subst. assert (Iy : In y l) by (apply Ic; now left). cbn [tins]. destruct (lt x y) eqn:E.
  - assert (Exy : lt y x = false). { destruct (lt y x) eqn:E2; [|reflexivity]. destruct W as (W1 & W2 & _). pose proof (W2 x y x Ix Iy Ix E E2) as K. rewrite (W1 x Ix) in K. discriminate. }
    constructor; [exact S|]. constructor; [exact Exy|]. rewrite Forall_forall in *. intros z Iz. apply (weak_le lt l W x y z); auto. apply Ic. now right.
  - constructor; [apply IH; [intros z Iz; apply Ic; now right|exact S']|]. apply Forall_forall. intros z Iz. apply (Permutation_in _ (tins_perm lt x r)) in Iz. destruct Iz as [<-|Iz]; [exact E|]. rewrite Forall_forall in F. now apply F.
Qed.
Lemma tsort_legal : legal_term_sort tsort.
Proof.
  intros lt l W. unfold tsort. assert (G : forall r, incl r l -> Permutation (fold_right (tins lt) [] r) r /\ StronglySorted (fun x y => lt y x = false) (fold_right (tins lt) [] r)).
  { induction r as [|x r IH]; intros Ic; [split; constructor|]. destruct (IH (fun z I => Ic z (or_intror I))) as (P & S). cbn [fold_right]. split; [rewrite tins_perm; now constructor|]. apply (tins_sorted lt l W); [apply Ic; now left| |exact S]. intros z Iz. apply Ic. right. eapply Permutation_in; [exact P|exact Iz]. }
  apply G. apply incl_refl.
Qed.
(** a double excitation and a generalised one with a shared index *)
Example C62_instance : exists U U', let pool := [(C1, Antihermitian 1 [3; 2] [1; 0]); (C1, Antihermitian (-1) [4; 2] [4; 0])] in
  ansatz_circuit PropSQ.isort tsort "SD" true false 1 pool [1; 0] (map RtoC [1/2; -1/3]%R) = Ok U /\ ansatz_circuit PropSQ.isort tsort "SD" false false 1 pool [1; 0] (map RtoC [1/2; -1/3]%R) = Ok U' /\ forall psi, circ_act U psi == circ_act U' psi.
Proof.
  apply (C62_branches_agree PropSQ.isort tsort PropSQ.isort_legal tsort_legal); [discriminate|reflexivity|repeat (constructor; [cbn; lia|]); constructor|]. cbn [combine].
  constructor; [|constructor; [|constructor]]; cbn [fst snd].
  - exists (-1)%R, [4; 2], [4; 0]. split; [split; [reflexivity|]; split; [|split; [cbn; lia|rewrite Rabs_left; lra]]|].
    + split; [discriminate|]. split; [reflexivity|]. split; [repeat constructor; lia|]. split; [repeat constructor; lia|]. right. exists 4, 2, 0. repeat split; try lia; tauto.
    + split; [right; rewrite Rabs_left; lra|]. right. intros q p s E1 E2. injection E1; injection E2; lia.
  - exists 1%R, [3; 2], [1; 0]. split; [split; [reflexivity|]; split; [|split; [cbn; lia|rewrite Rabs_right; lra]]|].
    + split; [discriminate|]. split; [reflexivity|]. split; [repeat constructor; lia|]. split; [repeat constructor; lia|]. left. intros k K1 K2. cbn in K1, K2. lia.
    + split; [right; rewrite Rabs_left; lra|]. right. intros q p s E1 E2. injection E1; injection E2; lia.
Qed.
Example C62_pool_instance : exists sp pool, set_orb_spaces [1; 1; 0; 0]%Z [] = Ok sp /\ SaModel.fill_pool PropSQ.isort sp "SD" [] = Ok pool /\ AnsatzCorrect PropSQ.isort tsort "SD" pool.
Proof.
  apply (C62_excitation_pools PropSQ.isort tsort PropSQ.isort_legal tsort_legal 2 [1; 1; 0; 0]%Z 3%N [] "SD" 2); [|split; [cbn; lia|]|now left|cbn; tauto].
  - split; [reflexivity|]. split; [apply Forall_forall; intros o Io; cbn in Io; lia|]. split; [reflexivity|]. intros [|[|[|[|p]]]] L; try reflexivity; lia.
  - intros p Lp. apply nth_overflow. cbn. lia.
Qed.
Example C62_sa_instance : exists sp pool, set_orb_spaces [1; 1; 0; 0]%Z [] = Ok sp /\ SaModel.fill_pool PropSQ.isort sp "sa_SD" [] = Ok pool.
Proof.
  destruct (C62_sa_pool PropSQ.isort tsort PropSQ.isort_legal tsort_legal 2 [1; 1; 0; 0]%Z 3%N []) as (sp & pool & _ & H1 & H2 & _); [|now left|reflexivity|exists sp, pool; auto].
  split; [reflexivity|]. split; [apply Forall_forall; intros o Io; cbn in Io; lia|]. split; [reflexivity|]. intros [|[|[|[|p]]]] L; try reflexivity; lia.
Qed.
Print Assumptions C62_compact.
Print Assumptions C62_trotter.
Print Assumptions C62_branches_agree.
Print Assumptions C62_excitation_pools.
Print Assumptions C62_gsd_pool.
Print Assumptions C62_sa_pool.
Print Assumptions C62_index.
Print Assumptions C62_one_term.
Print Assumptions C62_order_type.
