(** Symplectic Gram-Schmidt and the maximal Abelian subgroup (qubit_tapering.py:222-398). *)
From Coq Require Import List Arith Lia Bool.
From Verif Require Import Result TaperModel TaperAlg TaperKernel.
Import ListNotations.
Local Open Scope nat_scope.

(** the symplectic form on vectors (x part below n, z part above) *)
Definition sf (n : nat) (u v : nat -> bool) : bool := xs (fun k => xorb (u k && v (n + k)) (u (n + k) && v k)) n.
Lemma sf_sym n u v : sf n u v = sf n v u.
Proof. apply xs_ext. intros k _. destruct (u k), (v k), (u (n + k)), (v (n + k)); reflexivity. Qed.
Lemma sf_self n u : sf n u u = false.
Proof. apply xs_zero. intros k _. destruct (u k), (u (n + k)); reflexivity. Qed.
Lemma sf_ext n u u' v v' : (forall k, u k = u' k) -> (forall k, v k = v' k) -> sf n u v = sf n u' v'.
Proof. intros H1 H2. apply xs_ext. intros k _. rewrite !H1, !H2. reflexivity. Qed.
Lemma sf_xor n u u' v : sf n (fun k => xorb (u k) (u' k)) v = xorb (sf n u v) (sf n u' v).
Proof. unfold sf. rewrite <- xs_xor. apply xs_ext. intros k _. destruct (u k), (u' k), (u (n + k)), (u' (n + k)), (v k), (v (n + k)); reflexivity. Qed.
Lemma sf_and n c u v : sf n (fun k => c && u k) v = c && sf n u v.
Proof. unfold sf. rewrite <- xs_and. apply xs_ext. intros k _. destruct c, (u k), (u (n + k)), (v k), (v (n + k)); reflexivity. Qed.
Lemma sf_zero n v : sf n (fun _ => false) v = false.
Proof. apply xs_zero. reflexivity. Qed.
Lemma sf_comb n m c F v : sf n (comb m c F) v = xs (fun i => c i && sf n (F i) v) m.
Proof.
  induction m as [|m IH]; [apply sf_zero|]. cbn [xs]. rewrite <- IH, <- sf_and, <- sf_xor. reflexivity.
Qed.

Lemma vdot_xs a : forall b, length b = length a -> vdot a b = xs (fun k => nth k a false && nth k b false) (length a).
Proof.
  induction a as [|x a IH]; intros [|y b] H; cbn [length] in H; try lia; [reflexivity|]. cbn [vdot]. rewrite IH by lia. cbn [length]. rewrite xs_head. reflexivity.
Qed.
Lemma nth_rot (w : list bool) n k : length w = 2 * n -> k < 2 * n -> nth k (skipn n w ++ firstn n w) false = nth (if k <? n then n + k else k - n) w false.
Proof.
  intros HL Hk. destruct (Nat.ltb_spec k n).
  - rewrite app_nth1 by (rewrite skipn_length; lia). apply nth_skipn.
  - rewrite app_nth2 by (rewrite skipn_length; lia). rewrite skipn_length, HL. replace (2 * n - n) with n by lia.
    rewrite <- (firstn_skipn n w) at 2. rewrite app_nth1 by (rewrite firstn_length; lia). reflexivity.
Qed.
Lemma bform_sf n v w : length v = 2 * n -> length w = 2 * n -> bform v w = sf n (fun k => nth k v false) (fun k => nth k w false).
Proof.
  intros Hv Hw. unfold bform. rewrite Hw. replace (2 * n / 2) with n by (rewrite Nat.mul_comm, Nat.div_mul; lia).
  rewrite vdot_xs by (rewrite app_length, skipn_length, firstn_length; lia). rewrite Hv. replace (2 * n) with (n + n) by lia. rewrite xs_app, <- xs_xor. unfold sf.
  apply xs_ext. intros k Hk. rewrite !(nth_rot w n) by lia. destruct (Nat.ltb_spec k n); [|lia]. destruct (Nat.ltb_spec (n + k) n); [lia|].
  replace (n + k - n) with k by lia. reflexivity.
Qed.
Definition gram (n : nat) (B : list (list bool)) (i j : nat) : bool := sf n (view B i) (view B j).
Lemma com_view n B i j : wide (2 * n) B -> i < length B -> j < length B -> entry (commutation B) i j = gram n B i j.
Proof.
  intros HW Hi Hj. unfold entry, commutation, row_of. rewrite (nth_map_in _ _ i []) by exact Hi. rewrite (nth_map_in _ _ j []) by exact Hj.
  unfold gram, view. apply bform_sf; apply wide_row; assumption.
Qed.
Lemma com_len B i : i < length B -> length (row_of (commutation B) i) = length B.
Proof. intros Hi. unfold commutation, row_of. rewrite (nth_map_in _ _ i []) by exact Hi. apply map_length. Qed.

(** ---- Gram-Schmidt ---- *)
Lemma sgs_fold w com pr p1 p2 : In p1 pr -> In p2 pr -> p1 <> p2 -> forall ks M, NoDup ks -> p1 < length M -> p2 < length M ->
  (forall k, In k ks -> k < length M) -> wide w M ->
  let M' := fold_left (sgs_update com pr p1 p2) ks M in
  length M' = length M /\ wide w M' /\ requiv (length M) (view M) (view M') /\
  forall r c, view M' r c = if memb r ks && negb (memb r pr)
    then xorb (view M r c) (xorb (entry com r p2 && view M p1 c) (entry com r p1 && view M p2 c)) else view M r c.
Proof.
  intros I1 I2 N12. induction ks as [|k ks IH]; intros M HN H1 H2 Hk HW.
  - cbn. split; [reflexivity|]. split; [exact HW|]. split; [apply rq_eq; reflexivity|reflexivity].
  - inversion HN as [|? ? HN1 HN2]; subst. assert (Hkl : k < length M) by (apply Hk; left; reflexivity).
    set (M1 := sgs_update com pr p1 p2 M k).
    assert (HM1 : length M1 = length M /\ wide w M1 /\ requiv (length M) (view M) (view M1) /\
      forall r c, view M1 r c = if (r =? k) && negb (memb r pr) then xorb (view M r c) (xorb (entry com r p2 && view M p1 c) (entry com r p1 && view M p2 c)) else view M r c).
    { unfold M1, sgs_update. destruct (memb k pr) eqn:Em.
      - split; [reflexivity|]. split; [exact HW|]. split; [apply rq_eq; reflexivity|]. intros r c. destruct (Nat.eqb_spec r k) as [->|]; [rewrite Em|]; reflexivity.
      - assert (Nk1 : p1 <> k) by (intros ->; apply memb_false in Em; tauto). assert (Nk2 : p2 <> k) by (intros ->; apply memb_false in Em; tauto).
        set (Ma := if entry com k p2 then list_set M k (vxor (row_of M k) (row_of M p1)) else M).
        assert (HMa : length Ma = length M /\ wide w Ma /\ requiv (length M) (view M) (view Ma) /\
          forall r c, view Ma r c = if r =? k then xorb (view M r c) (entry com k p2 && view M p1 c) else view M r c).
        { unfold Ma. destruct (entry com k p2).
          - destruct (xor_step w M p1 k H1 Hkl Nk1 HW _ (or_intror eq_refl)) as (L & W & V & R). split; [exact L|]. split; [exact W|]. split; [exact R|].
            intros r c. rewrite V. unfold add_row. destruct (Nat.eqb_spec r k) as [->|]; reflexivity.
          - split; [reflexivity|]. split; [exact HW|]. split; [apply rq_eq; reflexivity|]. intros r c. destruct (r =? k); [rewrite xorb_false_r|]; reflexivity. }
        destruct HMa as (La & Wa & Ra & Va).
        set (Mb := if entry com k p1 then list_set Ma k (vxor (row_of Ma k) (row_of Ma p2)) else Ma).
        assert (HMb : length Mb = length Ma /\ wide w Mb /\ requiv (length M) (view Ma) (view Mb) /\
          forall r c, view Mb r c = if r =? k then xorb (view Ma r c) (entry com k p1 && view Ma p2 c) else view Ma r c).
        { unfold Mb. destruct (entry com k p1).
          - destruct (xor_step w Ma p2 k ltac:(lia) ltac:(lia) Nk2 Wa _ (or_intror eq_refl)) as (L & W & V & R). split; [exact L|]. split; [exact W|]. split; [rewrite <- La; exact R|].
            intros r c. rewrite V. unfold add_row. destruct (Nat.eqb_spec r k) as [->|]; reflexivity.
          - split; [reflexivity|]. split; [exact Wa|]. split; [apply rq_eq; reflexivity|]. intros r c. destruct (r =? k); [rewrite xorb_false_r|]; reflexivity. }
        destruct HMb as (Lb & Wb & Rb & Vb). split; [lia|]. split; [exact Wb|]. split; [eapply rq_trans; eassumption|].
        intros r c. rewrite Vb, !Va. destruct (Nat.eqb_spec p2 k); [congruence|]. destruct (Nat.eqb_spec r k) as [->|]; [|reflexivity]. rewrite Em. cbn [andb negb]. apply xorb_assoc. }
    destruct HM1 as (L1 & W1 & R1 & V1).
    destruct (IH M1 HN2 ltac:(lia) ltac:(lia) ltac:(intros; rewrite L1; apply Hk; right; assumption) W1) as (L2 & W2 & R2 & V2).
    cbn [fold_left]. fold M1. split; [lia|]. split; [exact W2|]. split; [eapply rq_trans; [exact R1|rewrite <- L1; exact R2]|].
    intros r c. rewrite V2, !V1. change (memb r (k :: ks)) with ((r =? k) || memb r ks)%bool.
    rewrite (proj2 (memb_spec p1 pr) I1), (proj2 (memb_spec p2 pr) I2), !andb_false_r.
    destruct (Nat.eqb_spec r k) as [->|]; cbn [orb andb].
    + rewrite (proj2 (memb_false k ks) HN1). cbn [andb]. reflexivity.
    + reflexivity.
Qed.

Record sgs_inv (n l : nat) (F0 : nat -> nat -> bool) (st : sgs_state) : Prop := {
  gi_len : length (fst (snd st)) = l; gi_wide : wide (2 * n) (fst (snd st)); gi_req : requiv l F0 (view (fst (snd st)));
  gi_com : snd (snd st) = commutation (fst (snd st));
  gi_lt : forall p, In p (fst st) -> p < l;
  gi_closed : forall i j, In i (fst st) -> j < l -> gram n (fst (snd st)) i j = true -> In j (fst st);
  gi_one : forall i j k, In i (fst st) -> j < l -> k < l -> gram n (fst (snd st)) i j = true -> gram n (fst (snd st)) i k = true -> j = k }.

Lemma nonzeros_com n B p x : wide (2 * n) B -> p < length B -> In x (nonzeros (row_of (commutation B) p)) <-> x < length B /\ gram n B p x = true.
Proof.
  intros HW Hp. unfold nonzeros. rewrite filter_In, in_seq, com_len by exact Hp. split.
  - intros [Hx E]. split; [lia|]. rewrite <- com_view by (try assumption; lia). exact E.
  - intros [Hx E]. split; [lia|]. rewrite <- com_view in E by assumption. exact E.
Qed.
Lemma gram_sym n B i j : gram n B i j = gram n B j i. Proof. apply sf_sym. Qed.
Lemma gram_self n B i : gram n B i i = false. Proof. apply sf_self. Qed.

Lemma sgs_step_inv n l F0 st p1 : p1 < l -> sgs_inv n l F0 st -> sgs_inv n l F0 (sgs_step st p1) /\ In p1 (fst (sgs_step st p1)) /\ incl (fst st) (fst (sgs_step st p1)).
Proof.
  intros Hp [HL HW HR HC HLt HCl H1]. destruct st as [pr [B com]]; cbn [fst snd] in *. subst com. unfold sgs_step; cbn [fst snd].
  destruct (memb p1 pr) eqn:Em.
  { cbn [fst snd]. split; [constructor; cbn [fst snd]; auto|]. split; [apply memb_spec, Em|apply incl_refl]. }
  apply memb_false in Em.
  (* p1 is orthogonal to everything processed *)
  assert (Hp1 : forall i, In i pr -> gram n B p1 i = false).
  { intros i Hi. destruct (gram n B p1 i) eqn:E; [|reflexivity]. exfalso; apply Em. apply (HCl i p1 Hi Hp). rewrite gram_sym. exact E. }
  destruct (nonzeros (row_of (commutation B) p1)) as [|x xs'] eqn:Enz.
  - cbn [fst snd]. assert (HN : forall x, x < l -> gram n B p1 x = false).
    { intros x Hx. destruct (gram n B p1 x) eqn:E; [|reflexivity]. assert (HIn : In x (nonzeros (row_of (commutation B) p1))) by (apply (nonzeros_com n); [exact HW|lia|split; [lia|exact E]]). rewrite Enz in HIn. destruct HIn. }
    split; [|split; [left; reflexivity|apply incl_tl, incl_refl]]. constructor; cbn [fst snd]; auto.
    + intros p [<-|H]; [exact Hp|apply HLt, H].
    + intros i j [<-|Hi] Hj E; [rewrite HN in E by exact Hj; discriminate|]. right. exact (HCl i j Hi Hj E).
    + intros i j k [<-|Hi] Hj Hk Ej Ek; [rewrite HN in Ej by exact Hj; discriminate|]. exact (H1 i j k Hi Hj Hk Ej Ek).
  - assert (HA : forall y, In y (x :: xs') -> y < length B /\ gram n B p1 y = true) by (intros y Hy; rewrite <- Enz in Hy; apply (nonzeros_com n); [exact HW|lia|exact Hy]).
    assert (Hfx : negb (memb x (p1 :: pr)) = true).
    { destruct (HA x (or_introl eq_refl)) as [Hx Ex]. apply negb_true_iff, memb_false. intros [<-|Hin]; [rewrite gram_self in Ex; discriminate|]. rewrite (Hp1 x Hin) in Ex. discriminate. }
    cbn [find]. rewrite Hfx. destruct (HA x (or_introl eq_refl)) as [Hx Ex]. rename x into p2. clear HA Enz xs'.
    apply negb_true_iff, memb_false in Hfx.
    assert (N12 : p1 <> p2) by (intros ->; apply Hfx; left; reflexivity).
    destruct (sgs_fold (2 * n) (commutation B) (p2 :: p1 :: pr) p1 p2 (or_intror (or_introl eq_refl)) (or_introl eq_refl) N12 (seq 0 (length B)) B (seq_NoDup _ _) ltac:(lia) Hx
      ltac:(intros k Hk; apply in_seq in Hk; lia) HW) as (L2 & W2 & R2 & V2).
    set (B' := fold_left (sgs_update (commutation B) (p2 :: p1 :: pr) p1 p2) (seq 0 (length B)) B) in *.
    set (pr' := p2 :: p1 :: pr) in *.
    assert (VP : forall r, In r pr' -> forall c, view B' r c = view B r c).
    { intros r Hr c. rewrite V2. rewrite (proj2 (memb_spec r pr') Hr). rewrite andb_false_r. reflexivity. }
    assert (VU : forall r, r < l -> ~ In r pr' -> forall c, view B' r c = xorb (view B r c) (xorb (gram n B r p2 && view B p1 c) (gram n B r p1 && view B p2 c))).
    { intros r Hr Hn c. rewrite V2. rewrite (proj2 (memb_false r pr') Hn). rewrite (proj2 (memb_spec r (seq 0 (length B)))) by (apply in_seq; lia). cbn [andb negb].
      rewrite !(com_view n) by (try assumption; lia). reflexivity. }
    assert (HPP : forall i j, In i pr' -> In j pr' -> gram n B' i j = gram n B i j) by (intros i j Hi Hj; apply sf_ext; intros; apply VP; assumption).
    assert (HPU : forall i j, In i pr' -> j < l -> ~ In j pr' -> gram n B' i j = false).
    { intros i j Hi Hj Hn. rewrite gram_sym. unfold gram.
      rewrite (sf_ext n (view B' j) (fun c => xorb (view B j c) (xorb (gram n B j p2 && view B p1 c) (gram n B j p1 && view B p2 c))) (view B' i) (view B i) (VU j Hj Hn) (VP i Hi)).
      rewrite sf_xor, (sf_xor n (fun c => gram n B j p2 && view B p1 c)), !sf_and. fold (gram n B j i) (gram n B p1 i) (gram n B p2 i).
      destruct Hi as [<-|[<-|Hi]].
      - rewrite gram_self, Ex. destruct (gram n B j p2), (gram n B j p1); reflexivity.
      - rewrite gram_self, (gram_sym n B p2 p1), Ex. destruct (gram n B j p2), (gram n B j p1); reflexivity.
      - assert (Hg : forall q, q < l -> ~ In q pr -> gram n B q i = false).
        { intros q Hq Hnq. destruct (gram n B q i) eqn:E; [|reflexivity]. exfalso; apply Hnq, (HCl i q Hi Hq). rewrite gram_sym. exact E. }
        rewrite (Hg j Hj (fun HH => Hn (or_intror (or_intror HH)))), (Hg p1 Hp Em), (Hg p2 ltac:(lia) (fun HH => Hfx (or_intror HH))).
        destruct (gram n B j p2), (gram n B j p1); reflexivity. }
    cbn [fst snd]. split; [|split; [right; left; reflexivity|intros y Hy; right; right; exact Hy]]. constructor; cbn [fst snd].
    + lia.
    + exact W2.
    + eapply rq_trans; [exact HR|]. rewrite HL in R2. exact R2.
    + reflexivity.
    + intros p [<-|[<-|Hq]]; [lia|exact Hp|apply HLt, Hq].
    + intros i j Hi Hj E. destruct (in_dec Nat.eq_dec j pr') as [Hin|Hn]; [exact Hin|]. rewrite HPU in E by assumption. discriminate.
    + assert (HP2 : forall i, In i pr -> gram n B p2 i = false).
      { intros i Hi. destruct (gram n B p2 i) eqn:E; [|reflexivity]. exfalso; apply Hfx. right. apply (HCl i p2 Hi ltac:(lia)). rewrite gram_sym. exact E. }
      intros i j k Hi Hj Hk Ej Ek.
      assert (Ij : In j pr') by (destruct (in_dec Nat.eq_dec j pr') as [Hin|Hn]; [exact Hin|rewrite HPU in Ej by assumption; discriminate]).
      assert (Ik : In k pr') by (destruct (in_dec Nat.eq_dec k pr') as [Hin|Hn]; [exact Hin|rewrite HPU in Ek by assumption; discriminate]).
      rewrite HPP in Ej, Ek by assumption.
      assert (Hcase : forall y, In y pr' -> gram n B i y = true -> (i = p1 /\ y = p2) \/ (i = p2 /\ y = p1) \/ (In i pr /\ In y pr)).
      { intros y Hy E. destruct Hi as [<-|[<-|Hi]]; destruct Hy as [<-|[<-|Hy]]; auto.
        - rewrite gram_self in E; discriminate.
        - rewrite HP2 in E by exact Hy; discriminate.
        - rewrite gram_self in E; discriminate.
        - rewrite Hp1 in E by exact Hy; discriminate.
        - rewrite gram_sym, HP2 in E by exact Hi; discriminate.
        - rewrite gram_sym, Hp1 in E by exact Hi; discriminate. }
      destruct (Hcase j Ij Ej) as [[A1 A2]|[[A1 A2]|[A1 A2]]], (Hcase k Ik Ek) as [[B1 B2]|[[B1 B2]|[B1 B2]]]; subst; try congruence; try contradiction;
        try (exfalso; apply Hfx; right; assumption).
      exact (H1 i j k A1 Hj Hk Ej Ek).
Qed.
Lemma sgs_loop n l F0 : forall ks st, (forall k, In k ks -> k < l) -> sgs_inv n l F0 st ->
  sgs_inv n l F0 (fold_left sgs_step ks st) /\ incl ks (fst (fold_left sgs_step ks st)) /\ incl (fst st) (fst (fold_left sgs_step ks st)).
Proof.
  induction ks as [|k ks IH]; intros st Hk HI.
  - cbn. split; [exact HI|]. split; [intros ? []|apply incl_refl].
  - cbn [fold_left]. destruct (sgs_step_inv n l F0 st k (Hk k (or_introl eq_refl)) HI) as (I1 & I2 & I3).
    destruct (IH _ (fun y Hy => Hk y (or_intror Hy)) I1) as (J1 & J2 & J3). split; [exact J1|]. split.
    + intros y [<-|Hy]; [apply J3, I2|apply J2, Hy].
    + intros y Hy. apply J3, I3, Hy.
Qed.
Theorem sgs_spec n B : wide (2 * n) B ->
  let r := symplectic_gs B (commutation B) in
  length (fst r) = length B /\ wide (2 * n) (fst r) /\ requiv (length B) (view B) (view (fst r)) /\ snd r = commutation (fst r) /\
  forall i j k, i < length B -> j < length B -> k < length B -> gram n (fst r) i j = true -> gram n (fst r) i k = true -> j = k.
Proof.
  intros HW. unfold symplectic_gs. set (l := length B).
  assert (H0 : sgs_inv n l (view B) ([], (B, commutation B))).
  { constructor; cbn [fst snd In]; [reflexivity|exact HW|apply rq_eq; reflexivity|reflexivity|tauto|tauto|tauto]. }
  destruct (sgs_loop n l (view B) (seq 0 l) _ ltac:(intros k Hk; apply in_seq in Hk; lia) H0) as (HI & Hall & _).
  set (st := fold_left sgs_step (seq 0 l) _) in *. destruct HI as [HL HWd HR HC HLt HCl H1].
  repeat (split; [assumption|]). intros i j k Hi Hj Hk. apply H1; try assumption. apply Hall, in_seq. lia.
Qed.
