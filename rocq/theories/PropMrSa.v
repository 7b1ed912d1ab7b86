(** C81: the spin adapted references of MRSQK. *)
From Coq Require Import Reals String List Arith NArith ZArith Bool Lia Lra Permutation Sorted.
From Verif Require Import CBase Result Bits Spec OpSpec GateModel ComputerModel PyModel OperatorModel FermiProofs StateProofs EigModel EigProofs GradModel QkModel QkProofs QkEig LibProofs MrModel MrProofs MrRefs MrSa PropOperator PropMeasure PropEig PropGrad PropMrRefs PropMrMat.
From Verif Require QftProofs.
Import ListNotations.
Local Open Scope nat_scope.

(** Vocabulary (MrSa): same_config r d (same spatial occupations and |Sz|), ClassOf r cl (cl lists
    exactly the determinants of r's configuration), Configurations refs classes (the configurations
    of the determinants refs, each once), CIMatrix (the Hamiltonian matrix in the determinants),
    config_wave cf cl (the combination with coefficients cf of the configuration cl, divided by
    the root of its weight), TopPicks (positions with the largest values, in decreasing order). *)

Definition pick_all (d : nat) (basis_coeff : list (list R)) (det_lst : list (list (list nat))) : res (list (list (R * list nat))) :=
  let sorted_importance := sorted_largest_idxs (map (fun v => RtoC (importance v)) basis_coeff) true in
  foreach (seq 0 d) (fun i l => do p <- py_get sorted_importance i; do c <- py_get basis_coeff (snd p); do dd <- py_get det_lst (snd p); Ok (l ++ [combine (normalised c) dd])%list) [].
Lemma nth_map_nil {A B} (f : A -> B) (l : list (list A)) g : nth g (map (map f) l) [] = map f (nth g l []).
Proof. exact (map_nth (map f) l [] g). Qed.
Lemma pick_all_spec classes ts d : NoDup (concat classes) -> length ts = length (concat classes) -> Forall (fun cl => cl <> []) classes -> let cf := lookup (concat classes) ts in let lens := map (@length (list nat)) classes in
  (length classes < d -> pick_all d (pieces ts lens) (pieces (concat classes) lens) = Throw (PyError "IndexError")) /\
  (d <= length classes -> exists picks, pick_all d (pieces ts lens) (pieces (concat classes) lens) = Ok (map (fun g => config_wave cf (nth g classes [])) picks) /\ TopPicks (length classes) d (fun g => last_weight cf (nth g classes [])) picks).
Proof.
  intros ND HL HNE cf lens. unfold pick_all. cbv zeta. unfold lens. assert (ET : pieces ts (map (@length (list nat)) classes) = map (map cf) classes) by (rewrite <- (lookup_map (concat classes) ts ND HL) at 1; fold cf; now rewrite pieces_map, pieces_concat). rewrite pieces_concat, ET. clear ET.
  assert (EI : map (fun v => RtoC (importance v)) (map (map cf) classes) = map RtoC (map (last_weight cf) classes)).
  { rewrite !map_map. apply map_ext_in. intros cl Hcl. f_equal. apply importance_class. rewrite Forall_forall in HNE. now apply HNE. }
  rewrite EI. set (s := sorted_largest_idxs (map RtoC (map (last_weight cf) classes)) true).
  assert (LS : length s = length classes) by (unfold s; rewrite (Permutation_length (EigProofs.sorted_perm _ _)), combine_length, seq_length, !map_length; lia).
  assert (HI : forall p, In p s -> snd p < length (map (map cf) classes)). { intros p Hp. apply (Permutation_in _ (EigProofs.sorted_perm _ _)) in Hp. destruct p as [e j]. apply in_combine_r in Hp. apply in_seq in Hp. rewrite !map_length in Hp. rewrite map_length. cbn [snd]. lia. }
  rewrite (pick_loop s (map (map cf) classes) classes (fun c dd => combine (normalised c) dd) d) by (first [exact HI | now rewrite map_length]). rewrite LS. split.
  - intros Hd. destruct (Nat.ltb_spec (length classes) d); [reflexivity|lia].
  - intros Hd. destruct (Nat.ltb_spec (length classes) d); [lia|]. exists (map snd (firstn d s)). split.
    + f_equal. apply map_ext. intros g. rewrite nth_map_nil. apply normalised_class.
    + assert (Hd' : d <= length (map (last_weight cf) classes)) by (rewrite map_length; exact Hd). pose proof (picks_spec (map (last_weight cf) classes) d Hd') as (A & B & D & F & G). fold s in A, B, D, F, G. rewrite map_length in D, G.
      assert (HN : forall g, g < length classes -> nth g (map (last_weight cf) classes) 0%R = last_weight cf (nth g classes [])). { intros g Hg. rewrite (nth_indep _ 0%R (last_weight cf [])) by (rewrite map_length; exact Hg). apply map_nth. }
      split; [exact A|]. split; [exact B|]. split; [exact D|]. rewrite Forall_forall in D. split.
      * rewrite <- (map_id (map snd (firstn d s))). eapply sorted_map; [|exact F]. intros a b Ha Hb H1. cbn beta in H1. rewrite !HN in H1 by (apply D; assumption). exact H1.
      * intros a b Ha Hb Hnb. rewrite <- !HN by (try exact Hb; now apply D). now apply G.
Qed.
Lemma sa_parts eig o sds sa : (forall k A, length (fst (eig k A)) = k) -> Hamiltonian (mr_nqb o) (mr_ham o) -> Forall (DetOn (mr_nqb o)) sds -> build_sa_refs eig o sds = Ok sa ->
  exists classes h rt, Configurations sds classes /\ let dets := concat classes in let k := length dets in CIMatrix (mr_nqb o) (mr_ham o) dets h /\
  let col n := snd (nth n (sorted_largest_idxs (fst (eig k h)) false) (C0, 0)) in let cf := lookup dets (map (fun a => Re (snd (eig k h) a (col rt))) (seq 0 k)) in
  0 < k /\ rt < k /\ (if Rlt_dec (Rabs (Re (snd (eig k h) 0 (col 0)))) 1e-6 then 1 <= rt /\ (1e-6 <= Rabs (Re (snd (eig k h) 0%nat (col rt))))%R /\ forall i, 1 <= i < rt -> (Rabs (Re (snd (eig k h) 0%nat (col i))) < 1e-6)%R else mr_root o = Some rt) /\
  exists picks, TopPicks (length classes) (mr_d o) (fun g => last_weight cf (nth g classes [])) picks /\ sa = map (fun g => config_wave cf (nth g classes [])) picks.
Proof.
  intros HE HH HD E. unfold build_sa_refs in E. destruct (mr_fast o); cbn [negb] in E; [|discriminate]. destruct (spin_complements_spec sds) as (classes & ES & HC). rewrite ES in E. cbn [bind fst snd] in E. cbv zeta in E.
  assert (HDC : Forall (DetOn (mr_nqb o)) (concat classes)). { apply Forall_forall. intros d Hd. apply in_concat in Hd. destruct Hd as (cl & Hcl & Hd). destruct HC as (_ & HF & _). rewrite Forall_forall in HF. destruct (HF cl Hcl) as (r & Hr & _ & HI). apply HI in Hd. rewrite Forall_forall in HD. exact (moved_det _ _ _ (HD r Hr) (proj1 Hd)). }
  destruct (ci_mats_spec o _ eq_refl HH _ HDC) as (h & EH & CI). rewrite EH in E. cbn [bind] in E. set (dets := concat classes) in *. set (k := length dets) in *.
  set (col := fun n => snd (nth n (sorted_largest_idxs (fst (eig k h)) false) (C0, 0))).
  destruct (Nat.ltb_spec 0 k) as [K0|]; cbn [negb] in E; [|discriminate]. fold (col 0) in E.
  assert (HR : exists rt, rt < k /\ (if Rlt_dec (Rabs (Re (snd (eig k h) 0 (col 0)))) 1e-6 then 1 <= rt /\ (1e-6 <= Rabs (Re (snd (eig k h) 0%nat (col rt))))%R /\ (forall i, 1 <= i < rt -> (Rabs (Re (snd (eig k h) 0%nat (col i))) < 1e-6)%R) else mr_root o = Some rt) /\
    pick_all (mr_d o) (pieces (map (fun i => Re (snd (eig k h) i (col rt))) (seq 0 k)) (map (@length (list nat)) classes)) (pieces dets (map (@length (list nat)) classes)) = Ok sa).
  { unfold Rltb in E at 1. destruct (Rlt_dec (Rabs (Re (snd (eig k h) 0 (col 0)))) 1e-6) as [Ls|Gs].
    - match type of E with (do root <- ?a; _) = _ => destruct a as [rt|] eqn:ER; cbn [bind] in E; [|discriminate] end. apply adjusted_spec in ER. destruct ER as (R1 & R2 & R3 & R4). exists rt. split; [exact R2|]. split; [split; [exact R1|split; [exact R3|exact R4]]|exact E].
    - destruct (mr_root o) as [rt|]; [|discriminate]. destruct (Nat.ltb_spec rt k) as [Lr|]; [|discriminate]. cbn [bind] in E. exists rt. split; [exact Lr|]. split; [reflexivity|exact E]. }
  destruct HR as (rt & R1 & R2 & R3). exists classes, h, rt. split; [exact HC|]. cbv zeta. fold dets k. fold (col 0). split; [exact CI|]. split; [exact K0|]. split; [exact R1|]. split; [exact R2|].
  destruct (HC) as (ND & HF & _). assert (HNE : Forall (fun cl : list (list nat) => cl <> []) classes). { eapply Forall_impl; [|exact HF]. intros cl (r & _ & _ & HI) ->. apply (proj2 (HI r)). split; [apply moved_refl|reflexivity]. }
  destruct (pick_all_spec classes (map (fun i => Re (snd (eig k h) i (col rt))) (seq 0 k)) (mr_d o) ND) as (P1 & P2); [rewrite map_length, seq_length; reflexivity|exact HNE|].
  destruct (Nat.lt_ge_cases (length classes) (mr_d o)) as [Lt|Ge]; [specialize (P1 Lt); unfold dets in R3; rewrite P1 in R3; discriminate|]. destruct (P2 Ge) as (picks & EP & TP). unfold dets in R3. rewrite EP in R3. injection R3 as <-. exists picks. split; [exact TP|reflexivity].
Qed.
(** ---- the references ---- *)
(** the CI coefficients of column j, the determinants [dets] in this order *)
Definition Coefficients (dets : list (list nat)) (vecs : mat) (j : nat) (cf : list nat -> R) : Prop := forall a, a < length dets -> cf (nth a dets []) = Re (vecs a j).
(** which eigenvector is used: target_root, unless the first determinant does not occur in the
    lowest one; then the first excited one in which it does *)
Definition RootChoice (o : mr_options) (vals : list C) (vecs : mat) (root : nat) : Prop := exists col : nat -> nat, (forall i, i < length vals -> IsRoot vals i (col i)) /\ root < length vals /\
  (if Rlt_dec (Rabs (Re (vecs 0 (col 0)))) 1e-6 then 1 <= root /\ (1e-6 <= Rabs (Re (vecs 0%nat (col root))))%R /\ forall i, 1 <= i < root -> (Rabs (Re (vecs 0%nat (col i))) < 1e-6)%R else mr_root o = Some root).
Theorem C81_references_partial : forall eig o sds sa, (forall k A, length (fst (eig k A)) = k) -> Hamiltonian (mr_nqb o) (mr_ham o) -> Forall (DetOn (mr_nqb o)) sds -> build_sa_refs eig o sds = Ok sa ->
  exists classes h root j cf picks, Configurations sds classes /\ let dets := concat classes in let e := eig (length dets) h in
    CIMatrix (mr_nqb o) (mr_ham o) dets h /\ RootChoice o (fst e) (snd e) root /\ IsRoot (fst e) root j /\ Coefficients dets (snd e) j cf /\
    TopPicks (length classes) (mr_d o) (fun g => last_weight cf (nth g classes [])) picks /\ sa = map (fun g => config_wave cf (nth g classes [])) picks.
Proof.
  intros eig o sds sa HE HH HD E. destruct (sa_parts eig o sds sa HE HH HD E) as (classes & h & rt & HC & HCI & H). cbv zeta in H. destruct H as (K0 & Rk & RC & picks & TP & ES).
  set (dets := concat classes) in *. set (k := length dets) in *. set (col := fun n => snd (nth n (sorted_largest_idxs (fst (eig k h)) false) (C0, 0))).
  exists classes, h, rt, (col rt), (lookup dets (map (fun a => Re (snd (eig k h) a (col rt))) (seq 0 k))), picks. split; [exact HC|]. cbv zeta. fold dets k. split; [exact HCI|]. split; [|split; [|split; [|split]]].
  - exists col. split; [intros i Hi; apply root_spec, Hi|]. rewrite HE. split; [exact Rk|exact RC].
  - apply root_spec. rewrite HE. exact Rk.
  - intros a Ha. rewrite lookup_nth; [|apply HC|rewrite map_length, seq_length; reflexivity|exact Ha]. rewrite (nth_indep _ 0%R (Re (snd (eig k h) 0 (col rt)))) by (rewrite map_length, seq_length; exact Ha). rewrite (map_nth (fun a => Re (snd (eig k h) a (col rt)))), seq_nth by exact Ha. reflexivity.
  - exact TP.
  - exact ES.
Qed.
Print Assumptions C81_references_partial.
Lemma inner_wave n r phi : Forall (fun t : R * list nat => DetOn n (snd t)) r -> inner n (ref_wave r) phi = Csum (fun t => (RtoC (fst t) * phi (det_number (snd t)))%C) r.
Proof.
  induction r as [|t r IH]; intros H; [unfold ref_wave, inner; cbn; apply Csum_zero; intros; cbn; apply C_ext; cbn; ring|]. inversion H as [|? ? H1 H2]; subst. rewrite Csum_cons, <- (IH H2).
  assert (EW : ref_wave (t :: r) == sadd (sscale (RtoC (fst t)) (ket (det_number (snd t)))) (ref_wave r)) by (intros I; unfold ref_wave at 1; rewrite Csum_cons; reflexivity). rewrite (inner_ext n _ _ _ _ EW (fun I => eq_refl)), inner_add_l, inner_scale_l, QftProofs.inner_ket by (now apply det_number_lt). f_equal. f_equal. apply C_ext; cbn; ring.
Qed.
Lemma wave_off n r d : DetOn n d -> Forall (fun t : R * list nat => DetOn n (snd t)) r -> ~ In d (map snd r) -> ref_wave r (det_number d) = C0.
Proof.
  intros Hd HR HN. unfold ref_wave. apply Csum_zero. intros t Ht. unfold ket. destruct (Nat.eqb_spec (det_number d) (det_number (snd t))) as [E|]; [|ring]. exfalso. apply HN. rewrite Forall_forall in HR. rewrite (det_number_inj n d (snd t) Hd (HR t Ht) E). now apply in_map.
Qed.
Lemma wave_on n r : NoDup (map snd r) -> Forall (fun t : R * list nat => DetOn n (snd t)) r -> forall t, In t r -> ref_wave r (det_number (snd t)) = RtoC (fst t).
Proof.
  induction r as [|u r IH]; intros ND HR t Ht; [destruct Ht|]. inversion ND as [|? ? N1 N2]; subst. inversion HR as [|? ? H1 H2]; subst. unfold ref_wave. rewrite Csum_cons. fold (ref_wave r (det_number (snd t))). destruct Ht as [<-|Ht].
  - rewrite (wave_off n r) by assumption. unfold ket. rewrite Nat.eqb_refl. ring.
  - change (Csum (fun t0 => (RtoC (fst t0) * ket (det_number (snd t0)) (det_number (snd t)))%C) r) with (ref_wave r (det_number (snd t))). rewrite (IH N2 H2 t Ht). unfold ket. destruct (Nat.eqb_spec (det_number (snd t)) (det_number (snd u))) as [E|]; [|ring]. exfalso. apply N1. rewrite Forall_forall in H2. rewrite <- (det_number_inj n _ _ (H2 t Ht) H1 E). now apply in_map.
Qed.
Lemma weight_nonneg cf cl : (0 <= config_weight cf cl)%R.
Proof. unfold config_weight. induction cl as [|d cl IH]; cbn; [lra|]. pose proof (Rle_0_sqr (cf d)). unfold Rsqr in *. lra. Qed.
Lemma wave_dets cf cl : map snd (config_wave cf cl) = cl.
Proof. unfold config_wave. rewrite map_map. apply map_id. Qed.
Lemma wave_dets_on n cf cl : Forall (DetOn n) cl -> Forall (fun t : R * list nat => DetOn n (snd t)) (config_wave cf cl).
Proof. intros H. unfold config_wave. apply Forall_map. exact H. Qed.
Lemma wave_norm n cf cl : NoDup cl -> Forall (DetOn n) cl -> (0 < config_weight cf cl)%R -> inner n (ref_wave (config_wave cf cl)) (ref_wave (config_wave cf cl)) = C1.
Proof.
  intros ND HD HW. pose proof (wave_dets_on n cf cl HD) as HO. rewrite inner_wave by exact HO. rewrite (Csum_ext _ (fun t => RtoC (fst t * fst t))) by (intros t Ht; rewrite (wave_on n) by (rewrite ?wave_dets; assumption); apply C_ext; cbn; ring).
  unfold config_wave. rewrite Csum_map. cbn [fst]. set (w := config_weight cf cl) in *. assert (G : forall l, Csum (fun d => RtoC (cf d / sqrt w * (cf d / sqrt w))) l = RtoC (config_weight cf l / w)).
  { unfold config_weight. induction l as [|d l IH]; [apply C_ext; cbn; unfold Rdiv; ring|]. rewrite Csum_cons, IH. cbn [map fold_right]. apply C_ext; cbn; [|ring]. assert (S : (sqrt w * sqrt w = w)%R) by (apply sqrt_sqrt; lra). assert (N : sqrt w <> 0%R) by (intros E; rewrite E in S; lra). rewrite <- S at 3 4. field. exact N. }
  rewrite G. fold w. apply C_ext; cbn; [field; lra|reflexivity].
Qed.
Lemma weight_zero cf cl : config_weight cf cl = 0%R -> Forall (fun d => cf d = 0%R) cl.
Proof.
  unfold config_weight. induction cl as [|d cl IH]; intros H; constructor; cbn in H; pose proof (Rle_0_sqr (cf d)) as P; unfold Rsqr in P; pose proof (weight_nonneg cf cl) as Q; unfold config_weight in Q; [nra|apply IH; lra].
Qed.
Lemma concat_disjoint {A} (ls : list (list A)) : NoDup (concat ls) -> forall i j x, i <> j -> In x (nth i ls []) -> ~ In x (nth j ls []).
Proof.
  induction ls as [|l ls IH]; intros ND i j x Hij Hi Hj; [destruct i; destruct Hi|]. cbn [concat] in ND. assert (HX : forall y, In y l -> ~ In y (concat ls)). { clear - ND. induction l as [|z l IH]; intros y Hy; [destruct Hy|]. cbn in ND. inversion ND as [|? ? N1 N2]; subst. destruct Hy as [<-|Hy]; [intros H; apply N1, in_or_app; now right|now apply IH]. }
  assert (HC : forall k y, In y (nth k ls []) -> In y (concat ls)). { clear. intros k y Hy. apply in_concat. exists (nth k ls []). split; [|exact Hy]. destruct (Nat.lt_ge_cases k (length ls)) as [Lt|Ge]; [now apply nth_In|]. rewrite nth_overflow in Hy by exact Ge. destruct Hy. }
  destruct i as [|i], j as [|j]; cbn [nth] in *; [congruence|exact (HX x Hi (HC j x Hj))|exact (HX x Hj (HC i x Hi))|]. assert (ND2 : NoDup (concat ls)) by (clear - ND; induction l as [|z l IH]; [exact ND|]; inversion ND; auto). exact (IH ND2 i j x ltac:(congruence) Hi Hj).
Qed.
Lemma class_nodup {A} (ls : list (list A)) g : NoDup (concat ls) -> NoDup (nth g ls []).
Proof.
  revert g. induction ls as [|l ls IH]; intros g ND; [destruct g; constructor|]. cbn [concat] in ND. destruct g as [|g]; cbn [nth]; [now apply NoDup_app_l in ND|]. apply IH. clear - ND. induction l as [|z l IH]; [exact ND|]. inversion ND; auto.
Qed.
Lemma classes_on n sds classes : Forall (DetOn n) sds -> Configurations sds classes -> forall g, Forall (DetOn n) (nth g classes []).
Proof.
  intros HD (_ & HF & _) g. destruct (Nat.lt_ge_cases g (length classes)) as [Lt|Ge]; [|rewrite nth_overflow by exact Ge; constructor]. rewrite Forall_forall in HF. destruct (HF _ (nth_In _ [] Lt)) as (r & Hr & _ & HI). apply Forall_forall. intros d Hd. apply HI in Hd. rewrite Forall_forall in HD. exact (moved_det _ _ _ (HD r Hr) (proj1 Hd)).
Qed.
(** the references are orthonormal; a configuration whose coefficients all vanish is the only
    exception (there numpy divides zero by zero) *)
Theorem C81_orthonormal_partial : forall eig o sds sa, (forall k A, length (fst (eig k A)) = k) -> Hamiltonian (mr_nqb o) (mr_ham o) -> Forall (DetOn (mr_nqb o)) sds -> build_sa_refs eig o sds = Ok sa ->
  length sa = mr_d o /\
  (forall a b, a < mr_d o -> b < mr_d o -> a <> b -> inner (mr_nqb o) (ref_wave (nth a sa [])) (ref_wave (nth b sa [])) = C0) /\
  (forall a, a < mr_d o -> inner (mr_nqb o) (ref_wave (nth a sa [])) (ref_wave (nth a sa [])) = C1 \/ Forall (fun t => fst t = 0%R) (nth a sa [])) /\
  forall a, a < mr_d o -> exists r, In r sds /\ ClassOf r (map snd (nth a sa [])).
Proof.
  intros eig o sds sa HE HH HD E. destruct (C81_references_partial eig o sds sa HE HH HD E) as (classes & h & root & j & cf & picks & HC & H). cbv zeta in H. destruct H as (_ & _ & _ & _ & (LP & NP & FP & _) & ->). rewrite map_length.
  set (f := fun g => config_wave cf (nth g classes [])). assert (HN : forall a, a < mr_d o -> nth a (map f picks) [] = f (nth a picks 0)) by (intros a Ha; rewrite (nth_indep _ [] (f 0)) by (rewrite map_length; lia); apply map_nth).
  split; [exact LP|]. pose proof (classes_on _ _ _ HD HC) as HO. destruct HC as (ND & HF & _). split; [|split].
  - intros a b Ha Hb Hab. rewrite !HN by assumption. unfold f. rewrite inner_wave by apply wave_dets_on, HO. apply Csum_zero. intros t Ht.
    assert (In (snd t) (nth (nth a picks 0) classes [])) as Hs by (rewrite <- (wave_dets cf); now apply in_map). rewrite (wave_off (mr_nqb o)); [ring| |apply wave_dets_on, HO|].
    + specialize (HO (nth a picks 0)). rewrite Forall_forall in HO. now apply HO.
    + rewrite wave_dets. apply (concat_disjoint classes ND _ _ _) with (2 := Hs). intros EQ. apply Hab. apply (proj1 (NoDup_nth picks 0) NP); first [exact EQ | lia].
  - intros a Ha. rewrite HN by exact Ha. unfold f. set (cl := nth (nth a picks 0) classes []). destruct (Rle_lt_or_eq_dec _ _ (weight_nonneg cf cl)) as [P|Z].
    + left. apply wave_norm; [apply class_nodup, ND|apply HO|exact P].
    + right. unfold config_wave. apply Forall_map. eapply Forall_impl; [|apply (weight_zero cf cl); now symmetry]. intros d Hd. cbn. rewrite Hd. unfold Rdiv. ring.
  - intros a Ha. rewrite HN by exact Ha. unfold f. rewrite wave_dets. rewrite Forall_forall in HF, FP. apply HF, nth_In, FP, nth_In. lia.
Qed.
Print Assumptions C81_orthonormal_partial.
Lemma top_mono num d w w' picks : (forall a b, a < num -> b < num -> (w b <= w a)%R -> (w' b <= w' a)%R) -> TopPicks num d w picks -> TopPicks num d w' picks.
Proof.
  intros HM (A & B & D & F & G). rewrite Forall_forall in D. split; [exact A|]. split; [exact B|]. split; [apply Forall_forall, D|]. split.
  - rewrite <- (map_id picks). eapply sorted_map; [|exact F]. intros a b Ha Hb H. apply HM; auto.
  - intros a b Ha Hb Hn. apply HM; auto.
Qed.
Lemma even_weight cf cl : cl <> [] -> (forall d e, In d cl -> In e cl -> (cf d * cf d = cf e * cf e)%R) -> config_weight cf cl = (INR (length cl) * last_weight cf cl)%R.
Proof.
  intros HN HE. assert (HL : In (last cl []) cl). { clear HE. induction cl as [|d cl IH]; [congruence|]. destruct cl as [|e cl]; [now left|]. right. apply IH. discriminate. }
  unfold last_weight. set (x := (cf (last cl []) * cf (last cl []))%R). assert (G : forall l, incl l cl -> config_weight cf l = (INR (length l) * x)%R).
  { unfold config_weight. induction l as [|d l IH]; intros HI; [cbn; ring|]. cbn [map fold_right length]. rewrite S_INR, IH by (intros y Hy; apply HI; now right). rewrite (HE d (last cl []) (HI d (or_introl eq_refl)) HL). fold x. ring. }
  apply G, incl_refl.
Qed.
(** they are the heaviest configurations of the CI vector if all configurations have the same
    number of determinants, with coefficients of the same size within a configuration *)
Theorem C81_heaviest_partial : forall eig o sds sa, (forall k A, length (fst (eig k A)) = k) -> Hamiltonian (mr_nqb o) (mr_ham o) -> Forall (DetOn (mr_nqb o)) sds -> build_sa_refs eig o sds = Ok sa ->
  exists classes h root j cf picks, Configurations sds classes /\ let dets := concat classes in let e := eig (length dets) h in
    CIMatrix (mr_nqb o) (mr_ham o) dets h /\ RootChoice o (fst e) (snd e) root /\ IsRoot (fst e) root j /\ Coefficients dets (snd e) j cf /\ sa = map (fun g => config_wave cf (nth g classes [])) picks /\
    ((forall cl cl', In cl classes -> In cl' classes -> length cl = length cl') -> (forall cl d d', In cl classes -> In d cl -> In d' cl -> (cf d * cf d = cf d' * cf d')%R) ->
     TopPicks (length classes) (mr_d o) (fun g => config_weight cf (nth g classes [])) picks).
Proof.
  intros eig o sds sa HE HH HD E. destruct (C81_references_partial eig o sds sa HE HH HD E) as (classes & h & root & j & cf & picks & HC & H). exists classes, h, root, j, cf, picks. split; [exact HC|]. cbv zeta in H |- *. destruct H as (H1 & H2 & H3 & H4 & TP & ES).
  split; [exact H1|]. split; [exact H2|]. split; [exact H3|]. split; [exact H4|]. split; [exact ES|]. intros HL HV. eapply top_mono; [|exact TP]. intros a b Ha Hb H. cbn beta in *.
  assert (HNE : forall g, g < length classes -> nth g classes [] <> []). { intros g Hg. destruct HC as (_ & HF & _). rewrite Forall_forall in HF. destruct (HF _ (nth_In _ [] Hg)) as (r & _ & _ & HI). intros EN. rewrite EN in HI. apply (proj2 (HI r)). split; [apply moved_refl|reflexivity]. }
  rewrite !even_weight by (first [now apply HNE | intros d e; apply HV; now apply nth_In]). rewrite (HL _ _ (nth_In _ [] Ha) (nth_In _ [] Hb)). apply Rmult_le_compat_l; [apply pos_INR|exact H].
Qed.
Print Assumptions C81_heaviest_partial.
Lemma hit_length (classes : list (list (list nat))) : forall reps, NoDup (concat classes) -> (forall g, g < length classes -> exists r, In r reps /\ In r (nth g classes [])) -> length classes <= length reps.
Proof.
  induction classes as [|cl classes IH]; intros reps ND H; [cbn; lia|]. destruct (H 0) as (r & Hr & Hc); [cbn; lia|]. cbn [nth] in Hc. apply in_split in Hr. destruct Hr as (l1 & l2 & ->). rewrite app_length. cbn [length].
  assert (length classes <= length (l1 ++ l2)); [|rewrite app_length in *; lia]. apply IH; [clear - ND; cbn [concat] in ND; induction cl as [|z l IH]; [exact ND|]; inversion ND; auto|].
  intros g Hg. destruct (H (S g)) as (s & Hs & Hg'); [cbn; lia|]. exists s. split; [|exact Hg']. cbn [nth] in Hg'. apply in_or_app. apply in_app_or in Hs. destruct Hs as [Hs|[<-|Hs]]; [now left| |now right]. exfalso. exact (concat_disjoint (cl :: classes) ND 0 (S g) r ltac:(discriminate) Hc Hg').
Qed.
(** fast=False is not implemented; with fewer configurations than references wanted there is no
    result.  [reps] has a member of the configuration of each determinant *)
Theorem C81_raises : forall eig o sds, 
  (mr_fast o = false -> build_sa_refs eig o sds = Throw (PyError "NotImplementedError")) /\
  ((forall k A, length (fst (eig k A)) = k) -> Hamiltonian (mr_nqb o) (mr_ham o) -> Forall (DetOn (mr_nqb o)) sds ->
   forall reps, (forall r, In r sds -> exists r', In r' reps /\ same_config r r') -> length reps < mr_d o -> forall sa, build_sa_refs eig o sds <> Ok sa).
Proof.
  intros eig o sds. split; [intros H; unfold build_sa_refs; rewrite H; reflexivity|]. intros HE HH HD reps HR HL sa E. destruct (C81_references_partial eig o sds sa HE HH HD E) as (classes & h & root & j & cf & picks & HC & H). cbv zeta in H. destruct H as (_ & _ & _ & _ & (LP & NP & FP & _) & _).
  assert (L1 : length picks <= length classes). { rewrite <- (seq_length (length classes) 0). apply NoDup_incl_length; [exact NP|]. intros g Hg. rewrite Forall_forall in FP. apply in_seq. specialize (FP g Hg). lia. }
  assert (L2 : length classes <= length reps); [|lia]. destruct HC as (ND & HF & _). apply hit_length; [exact ND|]. intros g Hg. rewrite Forall_forall in HF. destruct (HF _ (nth_In _ [] Hg)) as (r & Hr & _ & HI). destruct (HR r Hr) as (r' & Hr' & Hs). exists r'. split; [exact Hr'|]. now apply HI.
Qed.
Print Assumptions C81_raises.
(** ---- refuted: the heaviest configurations in general.  Only the last coefficient of each
    configuration counts (val is reset for each coefficient) ---- *)
Definition three_eig : eig_oracle := fun k _ =>
  (repeat C0 k, fun i j => match i, j with 0, 0 => RtoC (7 / 11) | 1, 0 | 2, 0 | 0, 1 | 0, 2 => RtoC (6 / 11) | 1, 1 | 2, 2 => RtoC (2 / 11) | 1, 2 | 2, 1 => RtoC (-9 / 11) | _, _ => C0 end).
Definition three_options : mr_options := mkMr 4 [1; 1; 0; 0] [] 1 1 1 1 (Some 0) false true true true 1 1 1.
Lemma three_run : exists classes, classes = [[[1; 1; 0; 0]]; [[1; 0; 0; 1]; [0; 1; 1; 0]]] /\ Configurations [[1; 1; 0; 0]; [1; 0; 0; 1]] classes.
Proof.
  destruct (spin_complements_spec [[1; 1; 0; 0]; [1; 0; 0; 1]]) as (classes & E & HC). exists classes. split; [|exact HC]. match type of E with ?a = _ => let b := eval vm_compute in a in change a with b in E end. injection E as E1 E2.
  rewrite <- (pieces_concat classes), <- E1, <- E2. reflexivity.
Qed.
Lemma three_col : snd (nth 0 (sorted_largest_idxs (fst (three_eig 3 mzero)) false) (C0, 0)) = 0.
Proof.
  cbn [three_eig fst repeat]. unfold sorted_largest_idxs. cbn [length seq combine fold_right insert_pair fst]. assert (L : Rleb (Re C0) (Re C0) = true) by (unfold Rleb; destruct (Rltb_spec (Re C0) (Re C0)); [lra|reflexivity]). cbn [insert_pair fst]. rewrite !L. cbn [insert_pair fst]. rewrite ?L. reflexivity.
Qed.
Theorem C81_importance_refuted : exists eig o sds sa classes h cf, 
  Hamiltonian (mr_nqb o) (mr_ham o) /\ Forall (DetOn (mr_nqb o)) sds /\ Configurations sds classes /\ let dets := concat classes in let k := length dets in let e := eig k h in
  CIMatrix (mr_nqb o) (mr_ham o) dets h /\ 
  (forall i j, i < k -> j < k -> mdot k h (snd e) i j = (nth j (fst e) C0 * snd e i j)%C) /\ (forall i j, i < k -> j < k -> mdot k (madj (snd e)) (snd e) i j = delta i j) /\
  IsRoot (fst e) 0 0 /\ mr_root o = Some 0 /\ Coefficients dets (snd e) 0 cf /\ mr_d o = 1 /\ build_sa_refs eig o sds = Ok sa /\
  exists cl cl', In cl classes /\ In cl' classes /\ sa = [config_wave cf cl] /\ (config_weight cf cl < config_weight cf cl')%R.
Proof.
  set (o := three_options). set (sds := [[1; 1; 0; 0]; [1; 0; 0; 1]]). destruct three_run as (classes & EC & HC). fold sds in HC.
  assert (HD : Forall (DetOn 4) (concat classes)) by (rewrite EC; cbn [concat app]; repeat (constructor; [split; [reflexivity|]; repeat (constructor; [tauto|]); constructor|]); constructor).
  assert (HH : Hamiltonian (mr_nqb o) (mr_ham o)) by constructor.
  destruct (ci_mats_spec o 4 eq_refl HH _ HD) as (h & EH & CI). set (ts := [7 / 11; 6 / 11; 6 / 11]%R). set (cf := lookup (concat classes) ts).
  assert (ND : NoDup (concat classes)) by apply HC. assert (LT : length ts = length (concat classes)) by (rewrite EC; reflexivity).
  assert (HNE : Forall (fun cl : list (list nat) => cl <> []) classes) by (rewrite EC; repeat constructor; discriminate).
  destruct (pick_all_spec classes ts 1 ND LT HNE) as (_ & HP). destruct HP as (picks & EP & TP); [rewrite EC; cbn; lia|].
  assert (C0v : cf [1; 1; 0; 0] = (7 / 11)%R) by (unfold cf; rewrite EC; reflexivity). assert (C1v : cf [1; 0; 0; 1] = (6 / 11)%R) by (unfold cf; rewrite EC; reflexivity). assert (C2v : cf [0; 1; 1; 0] = (6 / 11)%R) by (unfold cf; rewrite EC; reflexivity).
  assert (EPk : picks = [0]).
  { fold cf in TP. destruct TP as (LP & _ & FP & _ & G). destruct picks as [|g [|? ?]]; try discriminate LP. f_equal. inversion FP as [|? ? Hg _]; subst. cbn in Hg. destruct g as [|[|g]]; [reflexivity| |cbn in Hg; lia]. exfalso. specialize (G 1 0 (or_introl eq_refl) ltac:(cbn; lia)). assert (N : ~ In 0 [1]) by (intros [H|[]]; discriminate). specialize (G N). unfold last_weight in G. cbn [nth last] in G. rewrite C0v, C2v in G. lra. }
  exists three_eig, o, sds, [config_wave cf [[1; 1; 0; 0]]], classes, h, cf. split; [exact HH|]. split; [apply Forall_forall; intros d Hd; rewrite Forall_forall in HD; apply HD; now apply HC|]. split; [exact HC|].
  cbv zeta. assert (EK : length (concat classes) = 3) by (rewrite EC; reflexivity). rewrite EK. split; [exact CI|].
  assert (HZ : forall i j, i < 3 -> j < 3 -> h i j = C0). { intros i j Hi Hj. rewrite (CI i j) by (rewrite EK; assumption). unfold inner. apply Csum_zero. intros I _. unfold op_act. cbn. ring. }
  split.
  { intros i j Hi Hj. unfold mdot. rewrite Csum_zero by (intros l Hl; apply in_seq in Hl; rewrite HZ by lia; ring). cbn [three_eig fst repeat]. destruct j as [|[|[|]]]; try lia; cbn [nth]; ring. }
  split.
  { intros i j Hi Hj. unfold mdot, madj. cbn [seq]. rewrite !Csum_cons, Csum_nil. destruct i as [|[|[|]]], j as [|[|[|]]]; try lia; cbn; apply C_ext; cbn; lra. }
  split; [pose proof (root_spec (fst (three_eig 3 mzero)) 0 ltac:(cbn; lia)) as HR0; rewrite three_col in HR0; exact HR0|]. split; [reflexivity|]. split.
  { intros a Ha. rewrite EK in Ha. rewrite EC. destruct a as [|[|[|]]]; try lia; cbn [concat app nth three_eig snd RtoC Re]; assumption. }
  split; [reflexivity|]. split.
  - unfold build_sa_refs. change (mr_fast o) with true. cbn [negb]. fold sds. destruct (spin_complements_spec sds) as (cls & ES & _). assert (ES' : spin_complements sds = Ok (concat classes, map (@length (list nat)) classes)) by (rewrite EC; vm_compute; reflexivity). rewrite ES'. cbn [bind fst snd]. cbv zeta. rewrite EH. cbn [bind]. rewrite EK.
    change (fst (three_eig 3 h)) with (fst (three_eig 3 mzero)). rewrite !three_col. change (0 <? 3) with true. cbn [negb]. assert (RL : Rltb (Rabs (Re (snd (three_eig 3 h) 0 0))) 1e-6 = false). { destruct (Rltb_spec (Rabs (Re (snd (three_eig 3 h) 0 0))) 1e-6) as [H|]; [|reflexivity]. exfalso. cbn [three_eig snd Re RtoC] in H. rewrite Rabs_right in H by lra. lra. } rewrite RL.
    change (mr_root o) with (Some 0). cbn [bind Nat.ltb Nat.leb]. rewrite three_col. change (map (fun i => Re (snd (three_eig 3 h) i 0)) (seq 0 3)) with ts. change (mr_d o) with 1. unfold pick_all in EP. cbv zeta in EP. rewrite EP, EPk. fold cf. rewrite EC. reflexivity.
  - exists [[1; 1; 0; 0]], [[1; 0; 0; 1]; [0; 1; 1; 0]]. rewrite EC at 1 2. split; [now left|]. split; [right; now left|]. split; [reflexivity|]. unfold config_weight. cbn [map fold_right]. rewrite C0v, C1v, C2v. lra.
Qed.
Print Assumptions C81_importance_refuted.
(** it succeeds if there are enough configurations, the target root exists and the first
    determinant occurs in the lowest CI vector *)
Theorem C81_completes_partial : forall eig o sds root, mr_fast o = true -> mr_root o = Some root -> Hamiltonian (mr_nqb o) (mr_ham o) -> Forall (DetOn (mr_nqb o)) sds ->
  (forall classes h, Configurations sds classes -> let dets := concat classes in let e := eig (length dets) h in CIMatrix (mr_nqb o) (mr_ham o) dets h ->
     mr_d o <= length classes /\ length (fst e) = length dets /\ root < length dets /\ forall j, IsRoot (fst e) 0 j -> (1e-6 <= Rabs (Re (snd e 0%nat j)))%R) ->
  exists sa, build_sa_refs eig o sds = Ok sa.
Proof.
  intros eig o sds root HF HR HH HD HS. unfold build_sa_refs. rewrite HF. cbn [negb]. destruct (spin_complements_spec sds) as (classes & ES & HC). rewrite ES. cbn [bind fst snd]. cbv zeta.
  assert (HDC : Forall (DetOn (mr_nqb o)) (concat classes)). { apply Forall_forall. intros d Hd. apply in_concat in Hd. destruct Hd as (cl & Hcl & Hd). apply (In_nth _ _ []) in Hcl. destruct Hcl as (g & _ & <-). pose proof (classes_on _ _ _ HD HC g) as H. rewrite Forall_forall in H. now apply H. }
  destruct (ci_mats_spec o _ eq_refl HH _ HDC) as (h & EH & CI). rewrite EH. cbn [bind]. specialize (HS classes h HC). cbv zeta in HS. specialize (HS CI). destruct HS as (S1 & S2 & S3 & S4). set (dets := concat classes) in *. set (k := length dets) in *.
  destruct (Nat.ltb_spec 0 k) as [H|]; [|lia]. cbn [negb]. match goal with |- context [Rltb ?x ?y] => assert (RL : Rltb x y = false) by (destruct (Rltb_spec x y) as [Lt|]; [exfalso; apply Rlt_not_le in Lt; apply Lt, S4, root_spec; exact (eq_ind_r (fun len => 0 < len) H S2)|reflexivity]); rewrite RL end. rewrite HR.
  destruct (Nat.ltb_spec root k); [|lia]. cbn [bind]. match goal with |- context [@map nat R ?f (seq 0 k)] => set (ts := map f (seq 0 k)) end.
  assert (HNE : Forall (fun cl : list (list nat) => cl <> []) classes). { destruct HC as (_ & HFo & _). eapply Forall_impl; [|exact HFo]. intros cl (r & _ & _ & HI) ->. apply (proj2 (HI r)). split; [apply moved_refl|reflexivity]. }
  destruct (pick_all_spec classes ts (mr_d o) (proj1 HC)) as (_ & P); [unfold ts; rewrite map_length, seq_length; reflexivity|exact HNE|]. destruct (P S1) as (picks & EP & _). unfold pick_all in EP. cbv zeta in EP. fold dets in EP. rewrite EP. eexists. reflexivity.
Qed.
Print Assumptions C81_completes_partial.
Example C81_nonvacuous : (forall k A, length (fst (three_eig k A)) = k) /\ Hamiltonian (mr_nqb three_options) (mr_ham three_options) /\ Forall (DetOn (mr_nqb three_options)) [[1; 1; 0; 0]; [0; 0; 1; 1]] /\
  exists sa, build_sa_refs three_eig three_options [[1; 1; 0; 0]; [0; 0; 1; 1]] = Ok sa /\ length sa = 1.
Proof.
  assert (HL : forall k A, length (fst (three_eig k A)) = k) by (intros k A; apply repeat_length). assert (HH : Hamiltonian (mr_nqb three_options) (mr_ham three_options)) by constructor.
  assert (HD : Forall (DetOn (mr_nqb three_options)) [[1; 1; 0; 0]; [0; 0; 1; 1]]) by (repeat (constructor; [split; [reflexivity|]; repeat (constructor; [tauto|]); constructor|]); constructor).
  split; [exact HL|]. split; [exact HH|]. split; [exact HD|]. destruct (C81_completes_partial three_eig three_options [[1; 1; 0; 0]; [0; 0; 1; 1]] 0 eq_refl eq_refl HH HD) as (sa & E).
  - intros classes h HC dets e CI. assert (L1 : 1 <= length classes). { destruct HC as (_ & _ & HI). specialize (HI _ (or_introl eq_refl)). destruct classes; [destruct HI|cbn; lia]. }
    assert (L2 : length dets <= 2).
    { unfold dets. destruct HC as (ND & HF & _). assert (HI : incl (concat classes) [[1; 1; 0; 0]; [0; 0; 1; 1]]). { intros d Hd. apply in_concat in Hd. destruct Hd as (cl & Hcl & Hd). rewrite Forall_forall in HF. destruct (HF cl Hcl) as (r & Hr & _ & HI). apply HI in Hd. destruct Hd as (Hd & _). rewrite (closed_shell_alone r d) by (first [exact Hd | destruct Hr as [<-|[<-|[]]]; reflexivity]). exact Hr. } exact (NoDup_incl_length ND HI). }
    assert (L3 : 0 < length dets). { unfold dets. destruct HC as (_ & _ & HI). specialize (HI _ (or_introl eq_refl)). destruct (concat classes); [destruct HI|cbn; lia]. }
    split; [exact L1|]. split; [apply HL|]. split; [exact L3|]. intros j (Hj & _). unfold e in Hj. rewrite HL in Hj. unfold e. cbn [three_eig snd]. destruct j as [|[|j]]; [| |lia]; cbn [RtoC Re]; rewrite Rabs_right; lra.
  - exists sa. split; [exact E|]. exact (proj1 (C81_orthonormal_partial three_eig three_options _ sa HL HH HD E)).
Qed.

(** ---- C82 for a whole run with spin adapted references (the default) ---- *)
Lemma run_references eig o refs : (forall k A, length (fst (eig k A)) = k) -> 1 <= mr_nqb o <= 64 -> Hamiltonian (mr_nqb o) (mr_ham o) -> mr_sa o = true -> mr_references eig o = Ok refs -> UsableRefs (mr_nqb o) refs /\ ref_count refs = mr_d o.
Proof.
  intros HE Hn HH HS E. unfold mr_references in E. destruct (mr_srqk eig o) as [k|]; cbn [bind] in E; [|discriminate]. destruct (build_refs o k) as [sds|] eqn:EB; cbn [bind] in E; [|discriminate]. rewrite HS in E. destruct (build_sa_refs eig o sds) as [sa|] eqn:ES; cbn [bind] in E; [|discriminate]. injection E as <-.
  destruct (build_refs_ok o k sds (proj2 Hn) EB) as (root & HR & Hr & Hw). destruct (build_refs_spec o k root (proj2 Hn) HR Hr Hw) as (j & l & tl & _ & (_ & _ & D1 & _) & (_ & _ & D2 & _) & EQ). cbv zeta in EQ. rewrite EB in EQ.
  assert (HD : Forall (DetOn (mr_nqb o)) sds) by (destruct (negb _); [discriminate|]; destruct (negb _); [discriminate|]; injection EQ as ->; destruct (mr_phase o); assumption).
  destruct (C81_references_partial eig o sds sa HE HH HD ES) as (classes & h & rt & jj & cf & picks & HC & H). cbv zeta in H. destruct H as (_ & _ & _ & _ & (LP & _) & ->). cbn [UsableRefs ref_count]. rewrite map_length. split; [|exact LP]. split; [apply Hn|].
  apply Forall_map, Forall_forall. intros g _. split; [apply wave_dets_on, (classes_on _ _ _ HD HC)|]. rewrite wave_dets. apply class_nodup, HC.
Qed.
Theorem C82_whole_run_partial : forall eig o r k, (forall k A, length (fst (eig k A)) = k) -> 1 <= mr_nqb o <= 64 -> MrSetup o -> mr_sa o = true -> mrsqk_run eig o = Ok r -> let N := mr_d o * (mr_s o + 1) in
  exists refs Psi, mr_references eig o = Ok refs /\ ref_count refs = mr_d o /\ (forall i m, i < mr_d o -> m <= mr_s o -> EvolvedTo o m (wave refs i) (Psi i m)) /\
  (forall p q, p < N -> q < N -> r_S r p q = inner (mr_nqb o) (at_position o Psi p) (at_position o Psi q) /\ r_H r p q = inner (mr_nqb o) (at_position o Psi p) (op_act (mr_ham o) (at_position o Psi q))) /\
  (GoodOverlap eig N (r_S r) -> KeptFirst eig N (r_S r) k -> EigCorrect eig k -> NonzeroVectors eig k -> length (r_eigenvalues r) = k /\
   forall L, (forall phi, L * Re (inner (mr_nqb o) phi phi) <= Re (inner (mr_nqb o) phi (op_act (mr_ham o) phi)))%R -> (L <= r_Egs r <= r_Ets r)%R).
Proof.
  intros eig o r k HE Hn HS Hsa E N. unfold mrsqk_run in E. destruct (mr_references eig o) as [refs|] eqn:ER; cbn [bind] in E; [|discriminate]. destruct (run_references eig o refs HE Hn (proj1 HS) Hsa ER) as (HU & HC).
  destruct (states_at o refs HS HU) as (qs & l & _ & _ & _ & _ & G). exists refs, (fun i m => psi_of (nth (position o i m) qs (new_computer (mr_nqb o)))). set (Psi := fun i m => psi_of (nth (position o i m) qs (new_computer (mr_nqb o)))).
  assert (HK : forall i m, i < ref_count refs -> m <= mr_s o -> EvolvedTo o m (wave refs i) (Psi i m)) by (intros i m Hi Hm; apply (G i m Hi Hm)).
  split; [reflexivity|]. split; [exact HC|]. split; [intros i m Hi Hm; apply HK; lia|]. split.
  - intros p q Hp Hq. unfold N in Hp, Hq. rewrite <- HC in Hp, Hq. destruct (split_position o refs p Hp) as (A1 & A2 & A3), (split_position o refs q Hq) as (B1 & B2 & B3). destruct (C82_matrices eig o refs r Psi HS HU E HK _ _ _ _ A1 A2 B1 B2) as (H1 & H2 & _). rewrite A3, B3 in H1, H2. auto.
  - intros GO KF EC NZ. unfold N in GO, KF. rewrite <- HC in GO, KF. destruct (C82_variational_partial eig o refs r k Psi HS HU E HK GO KF EC NZ) as (V1 & _ & _ & V4). split; [exact V1|exact V4].
Qed.
Print Assumptions C82_whole_run_partial.
