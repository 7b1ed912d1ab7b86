(** The simulator implements the specified action of gates. *)
From Coq Require Import Reals List Arith Lia Bool Lra FunctionalExtensionality.
From Verif Require Import CBase Result Bits Spec GateModel ComputerModel LoopProofs.
Import ListNotations.

(** *** index sets of the loops *)
Definition cnt (t n : nat) := 2 ^ (n - S t).

Lemma pow_split t n : t < n -> 2 ^ n = cnt t n * (2 ^ t + 2 ^ t).
Proof.
  intros H. unfold cnt. rewrite <- pow2_S, <- Nat.pow_add_r. f_equal; lia.
Qed.

Lemma in_1q n t b I : t < n ->
  In I (idxs (b2n b * 2 ^ t) (2 ^ t) (2 * 2 ^ t) (cnt t n)) <-> I < 2 ^ n /\ bit I t = b.
Proof.
  intros Ht. rewrite in_idxs. pose proof (pow_split t n Ht) as P. pose proof (pow2_pos t) as Pt.
  split.
  - intros (j & Hj & H).
    set (r := I - (b2n b * 2 ^ t + j * (2 * 2 ^ t))).
    assert (E : I = j * 2 ^ S t + b2n b * 2 ^ t + r) by (rewrite pow2_S; unfold r; nia).
    assert (Hr : r < 2 ^ t) by (unfold r; lia).
    split; [|rewrite E; apply bit_decomp; exact Hr].
    destruct b; simpl in *; nia.
  - intros [HI Hb]. destruct (bit_decomp_ex t I) as (k & r & Hr & E). rewrite Hb in E.
    exists k. rewrite pow2_S in E. split; [|lia].
    destruct (Nat.lt_ge_cases k (cnt t n)) as [L|L]; [exact L|]. exfalso. nia.
Qed.

(** control bit set, target bit [b]; the lower of the two qubits is [l], the higher [h] *)
Lemma in_2q n l h bl bh I : l < h -> h < n ->
  In I (nidxs (b2n bh * 2 ^ h + b2n bl * 2 ^ l) (2 ^ l) (2 * 2 ^ l) (cnt l h) (2 * 2 ^ h) (cnt h n))
  <-> I < 2 ^ n /\ bit I l = bl /\ bit I h = bh.
Proof.
  intros Hl Hh. rewrite in_nidxs.
  pose proof (pow_split l h Hl) as P. pose proof (pow_split h n Hh) as Q. pose proof (pow2_pos l) as Pl.
  split.
  - intros (k & j & Hk & Hj & H).
    set (r := I - (b2n bh * 2 ^ h + b2n bl * 2 ^ l + k * (2 * 2 ^ h) + j * (2 * 2 ^ l))).
    set (r' := j * 2 ^ S l + b2n bl * 2 ^ l + r).
    assert (Hr : r < 2 ^ l) by (unfold r; lia).
    assert (Hr' : r' < 2 ^ h).
    { unfold r'. rewrite pow2_S. destruct bl; simpl; nia. }
    assert (E : I = k * 2 ^ S h + b2n bh * 2 ^ h + r').
    { unfold r'. rewrite !pow2_S. unfold r. nia. }
    split; [|split].
    + rewrite E, pow2_S. destruct bh; simpl; nia.
    + rewrite E, bit_low by exact Hl. apply bit_decomp; exact Hr.
    + rewrite E. apply bit_decomp; exact Hr'.
  - intros (HI & Hbl & Hbh).
    destruct (bit_decomp_ex h I) as (k & r' & Hr' & E). rewrite Hbh in E.
    destruct (bit_decomp_ex l r') as (j & r & Hr & E').
    assert (Hb : bit r' l = bl).
    { rewrite <- Hbl. rewrite E. rewrite bit_low by exact Hl. reflexivity. }
    rewrite Hb in E'. rewrite pow2_S in E, E'.
    exists k, j. split; [|split].
    + destruct (Nat.lt_ge_cases k (cnt h n)) as [L|L]; [exact L|]. exfalso. nia.
    + destruct (Nat.lt_ge_cases j (cnt l h)) as [L|L]; [exact L|]. exfalso. nia.
    + lia.
Qed.

Lemma NoDup_1q n t b : NoDup (idxs (b2n b * 2 ^ t) (2 ^ t) (2 * 2 ^ t) (cnt t n)).
Proof. apply NoDup_idxs. lia. Qed.
Lemma NoDup_2q n l h bl bh : l < h ->
  NoDup (nidxs (b2n bh * 2 ^ h + b2n bl * 2 ^ l) (2 ^ l) (2 * 2 ^ l) (cnt l h) (2 * 2 ^ h) (cnt h n)).
Proof. intros Hl. apply NoDup_nidxs; [lia|]. pose proof (pow_split l h Hl). nia. Qed.

Lemma cnt_lt t n : t < n -> cnt t n < S (2 ^ n).
Proof. intros H. pose proof (pow_split t n H). pose proof (pow2_pos t). nia. Qed.

(** *** effect of the loop bodies, stated on amplitudes *)
(** the indices handled: [sel] is the set of indices with target bit 0 *)
Definition pair_result (n : nat) (sel : nat -> Prop) (t : nat) (f0 f1 : C -> C -> C) (v v' : list C) :=
  length v' = length v /\
  forall I, I < 2 ^ n ->
    (sel (upd I t false) -> nth I v' C0 =
       (if bit I t then f1 else f0) (nth (upd I t false) v C0) (nth (upd I t true) v C0)) /\
    (~ sel (upd I t false) -> nth I v' C0 = nth I v C0).

Lemma pair_loop n t l (sel : nat -> Prop) f0 f1 body v :
  length v = 2 ^ n -> t < n -> NoDup l ->
  (forall I, In I l <-> I < 2 ^ n /\ bit I t = false /\ sel I) ->
  (forall I w, In I l -> length w = length v ->
     body I (I + 2 ^ t) w = Ok (list_set (list_set w I (f0 (nth I w C0) (nth (I + 2 ^ t) w C0)))
                              (I + 2 ^ t) (f1 (nth I w C0) (nth (I + 2 ^ t) w C0)))) ->
  exists v', foreach l (fun I => body I (I + 2 ^ t)) v = Ok v' /\ pair_result n sel t f0 f1 v v'.
Proof.
  intros Hv Ht ND Hl HB.
  assert (Hd : forall I, bit I t = false -> I + 2 ^ t = upd I t true).
  { intros I H; symmetry; apply upd_true_add; exact H. }
  destruct (foreach_pair (2 ^ t) f0 f1 l body v) as (v' & E & Len & H1 & H2 & H3); auto.
  - apply pow2_pos.
  - intros I HI. apply Hl in HI. destruct HI as (HI & Hb & _). rewrite Hd by exact Hb.
    rewrite Hv. apply upd_lt; assumption.
  - intros I HI H. apply Hl in HI, H. destruct HI as (HI & Hb & _), H as (_ & H & _).
    rewrite Hd, bit_upd_same in H by exact Hb. discriminate.
  - exists v'; split; [exact E|]. split; [exact Len|]. intros I HI. split.
    + intros HS. assert (HIn : In (upd I t false) l).
      { apply Hl. split; [apply upd_lt; assumption|]. split; [apply bit_upd_same|exact HS]. }
      assert (E2 : upd I t false + 2 ^ t = upd I t true).
      { rewrite Hd by apply bit_upd_same. apply upd_upd. }
      destruct (bit I t) eqn:Eb.
      * specialize (H2 _ HIn). rewrite E2 in H2. rewrite (upd_id' I t true Eb) in H2 at 1. exact H2.
      * specialize (H1 _ HIn). rewrite E2 in H1. rewrite (upd_id' I t false Eb) in H1 at 1. exact H1.
    + intros HS. apply H3.
      * intros H. apply Hl in H. destruct H as (_ & Hb & H). apply HS.
        rewrite (upd_id' I t false Hb). exact H.
      * intros j Hj ->. apply Hl in Hj. destruct Hj as (_ & Hb & H). apply HS.
        rewrite Hd by exact Hb. rewrite upd_upd, (upd_id' j t false Hb). exact H.
Qed.

Lemma single_loop n l (sel : nat -> Prop) f body v :
  length v = 2 ^ n -> NoDup l ->
  (forall I, In I l <-> I < 2 ^ n /\ sel I) ->
  (forall I w, In I l -> length w = length v -> body I w = Ok (list_set w I (f (nth I w C0)))) ->
  exists v', foreach l body v = Ok v' /\ length v' = length v /\
    forall I, I < 2 ^ n -> (sel I -> nth I v' C0 = f (nth I v C0)) /\ (~ sel I -> nth I v' C0 = nth I v C0).
Proof.
  intros Hv ND Hl HB.
  destruct (foreach_single f l body v) as (v' & E & Len & H1 & H2); auto.
  - intros I HI; apply Hl in HI. rewrite Hv; tauto.
  - exists v'; split; [exact E|]. split; [exact Len|]. intros I HI. split; intros HS.
    + apply H1, Hl; auto.
    + apply H2. intros H; apply Hl in H; tauto.
Qed.

(** bodies in range *)
Lemma body_full_ok a b c d I0 I1 w : I0 < length w -> I1 < length w -> I0 <> I1 ->
  body_full a b c d I0 I1 w =
  Ok (list_set (list_set w I0 (a * nth I0 w C0 + b * nth I1 w C0)%C) I1 (c * nth I0 w C0 + d * nth I1 w C0)%C).
Proof.
  intros H0 H1 HN. unfold body_full. rewrite (vget_ok w I0 C0 H0), bind_Ok, (vget_ok w I1 C0 H1), bind_Ok.
  rewrite vset_ok by exact H0. rewrite bind_Ok. rewrite vset_ok by (rewrite list_set_length; exact H1).
  reflexivity.
Qed.
Lemma body_swap_ok I0 I1 w : I0 < length w -> I1 < length w ->
  body_swap I0 I1 w = Ok (list_set (list_set w I0 (nth I1 w C0)) I1 (nth I0 w C0)).
Proof.
  intros H0 H1. unfold body_swap. rewrite (vget_ok w I0 C0 H0), bind_Ok, (vget_ok w I1 C0 H1), bind_Ok.
  rewrite vset_ok by exact H0. rewrite bind_Ok. rewrite vset_ok by (rewrite list_set_length; exact H1).
  reflexivity.
Qed.
Lemma body_off_ok b c I0 I1 w : I0 < length w -> I1 < length w ->
  body_off b c I0 I1 w = Ok (list_set (list_set w I0 (b * nth I1 w C0)%C) I1 (c * nth I0 w C0)%C).
Proof.
  intros H0 H1. unfold body_off. rewrite (vget_ok w I0 C0 H0), bind_Ok, (vget_ok w I1 C0 H1), bind_Ok.
  rewrite vset_ok by exact H0. rewrite bind_Ok. rewrite vset_ok by (rewrite list_set_length; exact H1).
  reflexivity.
Qed.
Lemma body_scale_ok a I w : I < length w -> body_scale a I w = Ok (list_set w I (a * nth I w C0)%C).
Proof.
  intros H. unfold body_scale. rewrite (vget_ok w I C0 H), bind_Ok, vset_ok by exact H. reflexivity.
Qed.

(** *** clean 2x2 blocks: what the thresholded case analysis computes exactly *)
Local Open Scope R_scope.
Definition clean (z : C) : Prop := z = C0 \/ thr < Cabs z.

(** diag/off-diagonal pairs whose sum is at or below the threshold are exactly 0,
    and a purely off-diagonal block with equal entries is the X block *)
Definition block_ok (a b c d : C) : Prop :=
  (Cabs a + Cabs d <= thr -> a = C0 /\ d = C0) /\
  (Cabs b + Cabs c <= thr -> b = C0 /\ c = C0) /\
  (Cabs a + Cabs d <= thr -> b = c -> b = C1).

Lemma thr_pos : 0 < thr.
Proof. unfold thr; lra. Qed.

Lemma clean_pair a d : clean a -> clean d -> Cabs a + Cabs d <= thr -> a = C0 /\ d = C0.
Proof.
  intros [->|Ha] [->|Hd] H; auto.
  - rewrite Cabs_C0 in H. lra.
  - rewrite Cabs_C0 in H. lra.
  - pose proof (Cabs_nonneg a); lra.
Qed.
Lemma above_false x : above x = false -> x <= thr.
Proof. unfold above. destruct (Rltb_spec thr x); [discriminate|lra]. Qed.
Lemma above_true x : above x = true -> thr < x.
Proof. unfold above. destruct (Rltb_spec thr x); [auto|discriminate]. Qed.
Lemma chained_spec a b : cpp_chained_eq_one a b = Ceqb a b.
Proof.
  unfold cpp_chained_eq_one. destruct (Ceqb a b).
  - replace (RtoC 1) with C1 by reflexivity. apply Ceqb_refl.
  - apply Ceqb_neq. intros H; injection H; lra.
Qed.

Local Open Scope nat_scope.

(** *** apply_1qubit_gate *)
Lemma amp_range v n I : length v = 2 ^ n -> 2 ^ n <= I -> amp v I = C0.
Proof. intros Hv HI. unfold amp. apply nth_overflow. lia. Qed.

Lemma blocks2_1q n t body v : t < n ->
  (do r <- blocks2 (S (2 ^ n)) (2 ^ n) 0 (2 ^ t) (0 + 2 ^ t) (2 * 2 ^ t) body v; Ok (snd r))
  = foreach (idxs (b2n false * 2 ^ t) (2 ^ t) (2 * 2 ^ t) (cnt t n)) (fun I0 => body I0 (I0 + 2 ^ t)) v.
Proof.
  intros Ht. pose proof (pow_split t n Ht) as P. pose proof (pow2_pos t) as Pt.
  rewrite (blocks2_spec (cnt t n) (S (2 ^ n)) (2 ^ n) 0 (2 ^ t) (2 ^ t)).
  - simpl b2n. rewrite Nat.mul_0_l. destruct (foreach _ _ v); reflexivity.
  - apply cnt_lt; exact Ht.
  - intros j Hj. nia.
  - nia.
Qed.
Lemma blocks1_1q n t b body v : t < n ->
  (do r <- blocks1 (S (2 ^ n)) (2 ^ n) (b2n b * 2 ^ t) (b2n b * 2 ^ t + 2 ^ t) (2 * 2 ^ t) body v; Ok (snd r))
  = foreach (idxs (b2n b * 2 ^ t) (2 ^ t) (2 * 2 ^ t) (cnt t n)) body v.
Proof.
  intros Ht. pose proof (pow_split t n Ht) as P. pose proof (pow2_pos t) as Pt.
  rewrite (blocks1_spec (cnt t n)).
  - destruct (foreach _ _ v); reflexivity.
  - apply cnt_lt; exact Ht.
  - intros j Hj. destruct b; simpl; nia.
  - destruct b; simpl; nia.
Qed.

Lemma blocks1_1q0 n t body v : t < n ->
  (do r <- blocks1 (S (2 ^ n)) (2 ^ n) 0 (0 + 2 ^ t) (2 * 2 ^ t) body v; Ok (snd r))
  = foreach (idxs (b2n false * 2 ^ t) (2 ^ t) (2 * 2 ^ t) (cnt t n)) body v.
Proof. intros Ht. exact (blocks1_1q n t false body v Ht). Qed.
Lemma blocks1_1q1 n t body v : t < n ->
  (do r <- blocks1 (S (2 ^ n)) (2 ^ n) (2 ^ t) (2 ^ t + 2 ^ t) (2 * 2 ^ t) body v; Ok (snd r))
  = foreach (idxs (b2n true * 2 ^ t) (2 ^ t) (2 * 2 ^ t) (cnt t n)) body v.
Proof.
  intros Ht. rewrite <- (blocks1_1q n t true body v Ht).
  replace (b2n true * 2 ^ t) with (2 ^ t) by (simpl; lia). reflexivity.
Qed.

Definition vec_is (n : nat) (psi : state) (v : list C) : Prop :=
  length v = 2 ^ n /\ forall I, I < 2 ^ n -> nth I v C0 = psi I.

Lemma pair_loop_1q n t f0 f1 body v :
  length v = 2 ^ n -> t < n ->
  (forall I w, I + 2 ^ t < length w -> body I (I + 2 ^ t) w =
      Ok (list_set (list_set w I (f0 (nth I w C0) (nth (I + 2 ^ t) w C0)))
                              (I + 2 ^ t) (f1 (nth I w C0) (nth (I + 2 ^ t) w C0)))) ->
  exists v', foreach (idxs (b2n false * 2 ^ t) (2 ^ t) (2 * 2 ^ t) (cnt t n)) (fun I => body I (I + 2 ^ t)) v = Ok v'
   /\ vec_is n (fun I => (if bit I t then f1 else f0) (nth (upd I t false) v C0) (nth (upd I t true) v C0)) v'.
Proof.
  intros Hv Ht HB.
  destruct (pair_loop n t (idxs (b2n false * 2 ^ t) (2 ^ t) (2 * 2 ^ t) (cnt t n)) (fun _ => True) f0 f1 body v)
    as (v' & E & Len & H); auto.
  - apply NoDup_1q.
  - intros I. rewrite in_1q by exact Ht. tauto.
  - intros I w HI Hw. apply HB. apply in_1q in HI; [|exact Ht]. destruct HI as [HI Hb].
    rewrite Hw, Hv, <- upd_true_add by exact Hb. apply upd_lt; assumption.
  - exists v'; split; [exact E|]. split; [congruence|]. intros I HI. apply (H I HI). exact Logic.I.
Qed.

Lemma single_loop_1q n t b f body v :
  length v = 2 ^ n -> t < n ->
  (forall I w, I < length w -> body I w = Ok (list_set w I (f (nth I w C0)))) ->
  exists v', foreach (idxs (b2n b * 2 ^ t) (2 ^ t) (2 * 2 ^ t) (cnt t n)) body v = Ok v'
   /\ vec_is n (fun I => if Bool.eqb (bit I t) b then f (nth I v C0) else nth I v C0) v'.
Proof.
  intros Hv Ht HB.
  destruct (single_loop n (idxs (b2n b * 2 ^ t) (2 ^ t) (2 * 2 ^ t) (cnt t n)) (fun I => bit I t = b) f body v)
    as (v' & E & Len & H); auto.
  - apply NoDup_1q.
  - intros I. rewrite in_1q by exact Ht. tauto.
  - intros I w HI Hw. apply HB. apply in_1q in HI; [|exact Ht]. lia.
  - exists v'; split; [exact E|]. split; [congruence|]. intros I HI. destruct (H I HI) as [H1 H2].
    destruct (Bool.eqb_spec (bit I t) b); auto.
Qed.

Lemma apply1_vec_correct n t m v :
  length v = 2 ^ n -> t < n -> block_ok (m 0 0) (m 0 1) (m 1 0) (m 1 1) ->
  exists v', apply1_vec (2 ^ n) t m v = Ok v' /\ vec_is n (act1 m t (amp v)) v'.
Proof.
  intros Hv Ht (HD & HO & HX). unfold apply1_vec, abs2.
  pose proof (pow2_pos t) as Pt.
  destruct (above (Cabs (m 0 0) + Cabs (m 1 1))) eqn:ED; [destruct (above (Cabs (m 0 1) + Cabs (m 1 0))) eqn:EO|];
    cbn [andb].
  - (* Case I *)
    rewrite blocks2_1q by exact Ht.
    destruct (pair_loop_1q n t (fun x0 x1 => m 0 0 * x0 + m 0 1 * x1)%C
                (fun x0 x1 => m 1 0 * x0 + m 1 1 * x1)%C (body_full (m 0 0) (m 0 1) (m 1 0) (m 1 1)) v Hv Ht)
      as (v' & E & Len & H).
    { intros I w HI. apply body_full_ok; lia. }
    exists v'; split; [exact E|]. split; [exact Len|]. intros I HI. rewrite (H I HI).
    unfold act1, amp. destruct (bit I t); reflexivity.
  - (* Case II *)
    destruct (HO (above_false _ EO)) as [H01 H10].
    assert (HA : exists v1, (if negb (Ceqb (m 0 0) C1) then
               do r <- blocks1 (S (2 ^ n)) (2 ^ n) 0 (0 + 2 ^ t) (2 * 2 ^ t) (body_scale (m 0 0)) v; Ok (snd r)
             else Ok v) = Ok v1 /\ vec_is n (fun I => if Bool.eqb (bit I t) false then (m 0 0 * nth I v C0)%C else nth I v C0) v1).
    { destruct (Ceqb_spec (m 0 0) C1) as [E1|E1]; cbn [negb].
      - exists v; split; [reflexivity|]. split; [exact Hv|]. intros I HI. rewrite E1.
        destruct (Bool.eqb _ _); [ring|reflexivity].
      - rewrite blocks1_1q0 by exact Ht.
        destruct (single_loop_1q n t false (fun x => m 0 0 * x)%C (body_scale (m 0 0)) v Hv Ht) as (v1 & E & R); eauto.
        intros I w HI. apply body_scale_ok; exact HI. }
    destruct HA as (v1 & -> & Hv1 & R1). rewrite bind_Ok.
    assert (HB : exists v2, (if negb (Ceqb (m 1 1) C1) then
               do r <- blocks1 (S (2 ^ n)) (2 ^ n) (2 ^ t) (2 ^ t + 2 ^ t) (2 * 2 ^ t) (body_scale (m 1 1)) v1; Ok (snd r)
             else Ok v1) = Ok v2 /\ vec_is n (fun I => if Bool.eqb (bit I t) true then (m 1 1 * nth I v1 C0)%C else nth I v1 C0) v2).
    { destruct (Ceqb_spec (m 1 1) C1) as [E1|E1]; cbn [negb].
      - exists v1; split; [reflexivity|]. split; [exact Hv1|]. intros I HI. rewrite E1.
        destruct (Bool.eqb _ _); [ring|reflexivity].
      - rewrite blocks1_1q1 by exact Ht.
        destruct (single_loop_1q n t true (fun x => m 1 1 * x)%C (body_scale (m 1 1)) v1 Hv1 Ht) as (v2 & E & R); eauto.
        intros I w HI. apply body_scale_ok; exact HI. }
    destruct HB as (v2 & -> & Hv2 & R2). exists v2; split; [reflexivity|]. split; [exact Hv2|].
    intros I HI. rewrite (R2 I HI), (R1 I HI). unfold act1, amp.
    destruct (bit I t) eqn:Eb; cbn [Bool.eqb b2n].
    + rewrite H10, (upd_id' I t true Eb). ring.
    + rewrite H01, (upd_id' I t false Eb). ring.
  - (* Case III *)
    destruct (HD (above_false _ ED)) as [H00 H11]. specialize (HX (above_false _ ED)).
    rewrite chained_spec.
    destruct (Ceqb_spec (m 0 1) (m 1 0)) as [EX|EX]; rewrite blocks1_1q0 by exact Ht.
    + specialize (HX EX).
      destruct (pair_loop_1q n t (fun x0 x1 => x1) (fun x0 x1 => x0) body_swap v Hv Ht) as (v' & E & Len & H).
      { intros I w HI. apply body_swap_ok; lia. }
      exists v'; split; [exact E|]. split; [exact Len|]. intros I HI. rewrite (H I HI).
      unfold act1, amp. destruct (bit I t); cbn [b2n]; rewrite <- ?EX, ?HX, ?H00, ?H11; ring.
    + destruct (pair_loop_1q n t (fun x0 x1 => m 0 1 * x1)%C (fun x0 x1 => m 1 0 * x0)%C
                  (body_off (m 0 1) (m 1 0)) v Hv Ht) as (v' & E & Len & H).
      { intros I w HI. apply body_off_ok; lia. }
      exists v'; split; [exact E|]. split; [exact Len|]. intros I HI. rewrite (H I HI).
      unfold act1, amp. destruct (bit I t); cbn [b2n]; rewrite ?H00, ?H11; ring.
Qed.

(** *** apply_2qubit_gate, control-gate branch *)
Notation nid n l h bl bh :=
  (nidxs (b2n bh * 2 ^ h + b2n bl * 2 ^ l) (2 ^ l) (2 * 2 ^ l) (cnt l h) (2 * 2 ^ h) (cnt h n)).

Section Nests.
Variables (n l h : nat).
Hypothesis (Hl : l < h) (Hh : h < n).
Let P := pow_split l h Hl.
Let Q := pow_split h n Hh.
Let Pl := pow2_pos l.
Let Ph := pow2_pos h.

Lemma stride_eq : cnt l h * (2 * 2 ^ l) + 2 ^ h = 2 * 2 ^ h.
Proof. nia. Qed.
Lemma cnt_lh_lt : cnt l h < S (2 ^ n).
Proof. pose proof (pow2_pos (n - S h)). fold (cnt h n) in *. nia. Qed.

(* A: target = l, control = h, pairs *)
Lemma nestA2 body v :
  nest2 (2 ^ n) (2 * 2 ^ h) 0 (2 ^ h) (2 ^ h + 2 ^ l) (2 ^ h + 2 ^ l) (2 * 2 ^ l) (2 ^ h) (2 * 2 ^ h) body v
  = foreach (nid n l h false true) (fun I0 => body I0 (I0 + 2 ^ l)) v.
Proof.
  rewrite <- stride_eq at 2.
  rewrite (nest2_spec (cnt h n) (cnt l h)).
  - rewrite stride_eq. f_equal. f_equal. simpl; lia.
  - apply cnt_lt; exact Hh.
  - apply cnt_lh_lt.
  - intros k Hk. rewrite stride_eq. nia.
  - rewrite stride_eq. nia.
  - lia.
  - intros j Hj. nia.
  - nia.
Qed.
Lemma nestA1 b body v :
  nest1 (2 ^ n) (2 * 2 ^ h) (2 ^ h + b2n b * 2 ^ l) (2 ^ h + b2n b * 2 ^ l + 2 ^ l) (2 * 2 ^ l) (2 ^ h) (2 * 2 ^ h) body v
  = foreach (nid n l h b true) body v.
Proof.
  rewrite <- stride_eq at 2.
  rewrite (nest1_spec (cnt h n) (cnt l h)).
  - rewrite stride_eq. f_equal. f_equal. simpl; lia.
  - apply cnt_lt; exact Hh.
  - apply cnt_lh_lt.
  - intros k Hk. rewrite stride_eq. nia.
  - rewrite stride_eq. nia.
  - intros j Hj. destruct b; simpl b2n; nia.
  - destruct b; simpl b2n; nia.
Qed.
(* B: control = l, target = h, pairs *)
Lemma nestB2 body v :
  nest2 (2 ^ n) (2 ^ h * 2) (2 ^ h) (2 ^ l) (2 ^ h + 2 ^ l) (2 ^ l * 2) (2 ^ l * 2) (2 ^ h) (2 ^ h * 2) body v
  = foreach (nid n l h true false) (fun I0 => body I0 (I0 + 2 ^ h)) v.
Proof.
  rewrite (Nat.mul_comm (2 ^ h) 2), (Nat.mul_comm (2 ^ l) 2).
  replace (2 ^ h + 2 ^ l) with (2 ^ l + 2 ^ h) by lia.
  rewrite <- stride_eq at 2. change (2 * 2 ^ l) with (2 ^ l + (2 ^ l + 0)) at 1.
  rewrite Nat.add_0_r.
  rewrite (nest2_spec (cnt h n) (cnt l h)).
  - rewrite stride_eq. f_equal. f_equal. simpl; lia.
  - apply cnt_lt; exact Hh.
  - apply cnt_lh_lt.
  - intros k Hk. rewrite stride_eq. nia.
  - rewrite stride_eq. nia.
  - lia.
  - intros j Hj. nia.
  - nia.
Qed.
Lemma nestB2' body v :
  nest2 (2 ^ n) (2 ^ h) 0 (2 ^ l) (2 ^ h + 2 ^ l) (2 ^ l * 2) (2 ^ l * 2) (2 ^ h) (2 ^ h * 2) body v
  = foreach (nid n l h true false) (fun I0 => body I0 (I0 + 2 ^ h)) v.
Proof.
  rewrite (Nat.mul_comm (2 ^ h) 2), (Nat.mul_comm (2 ^ l) 2).
  replace (2 ^ h + 2 ^ l) with (2 ^ l + 2 ^ h) by lia.
  rewrite <- stride_eq. change (2 * 2 ^ l) with (2 ^ l + (2 ^ l + 0)) at 1.
  rewrite Nat.add_0_r.
  rewrite (nest2_spec (cnt h n) (cnt l h)).
  - rewrite stride_eq. f_equal. f_equal. simpl; lia.
  - apply cnt_lt; exact Hh.
  - apply cnt_lh_lt.
  - intros k Hk. rewrite stride_eq. nia.
  - rewrite stride_eq. nia.
  - lia.
  - intros j Hj. nia.
  - nia.
Qed.
Lemma nestB1 body v :
  nest1 (2 ^ n) (2 ^ h * 2) (2 ^ h + 2 ^ l) (2 ^ h + 2 ^ l + 2 ^ l) (2 ^ l * 2) (2 ^ h) (2 ^ h * 2) body v
  = foreach (nid n l h true true) body v.
Proof.
  rewrite (Nat.mul_comm (2 ^ h) 2), (Nat.mul_comm (2 ^ l) 2).
  rewrite <- (nestA1 true). replace (b2n true * 2 ^ l) with (2 ^ l) by (simpl; lia). reflexivity.
Qed.
Lemma nestBfor body v :
  nest_for (2 ^ n) (2 ^ h * 2) (2 ^ h) (2 ^ l) (2 ^ l * 2) body v
  = foreach (nid n l h true false) body v.
Proof.
  rewrite (Nat.mul_comm (2 ^ h) 2), (Nat.mul_comm (2 ^ l) 2).
  rewrite (nest_for_spec (cnt h n) (cnt l h)).
  - f_equal. f_equal. simpl; lia.
  - apply cnt_lt; exact Hh.
  - apply cnt_lh_lt.
  - intros k Hk. nia.
  - nia.
  - intros j Hj. nia.
  - nia.
Qed.
End Nests.

(** pairs with control set *)
Definition is_sel (c : nat) (I : nat) : Prop := bit I c = true.

Lemma pair_loop_2q n t c l f0 f1 body v :
  length v = 2 ^ n -> t < n -> c <> t -> NoDup l ->
  (forall I, In I l <-> I < 2 ^ n /\ bit I t = false /\ bit I c = true) ->
  (forall I w, I + 2 ^ t < length w -> body I (I + 2 ^ t) w =
      Ok (list_set (list_set w I (f0 (nth I w C0) (nth (I + 2 ^ t) w C0)))
                              (I + 2 ^ t) (f1 (nth I w C0) (nth (I + 2 ^ t) w C0)))) ->
  exists v', foreach l (fun I => body I (I + 2 ^ t)) v = Ok v'
   /\ vec_is n (fun I => if bit I c then
        (if bit I t then f1 else f0) (nth (upd I t false) v C0) (nth (upd I t true) v C0)
        else nth I v C0) v'.
Proof.
  intros Hv Ht Hc ND Hl HB.
  destruct (pair_loop n t l (is_sel c) f0 f1 body v) as (v' & E & Len & H); auto.
  - intros I w HI Hw. apply HB. apply Hl in HI. destruct HI as (HI & Hb & _).
    rewrite Hw, Hv, <- upd_true_add by exact Hb. apply upd_lt; assumption.
  - exists v'; split; [exact E|]. split; [congruence|]. intros I HI.
    destruct (H I HI) as [H1 H2]. unfold is_sel in *. rewrite bit_upd_other in H1, H2 by exact Hc.
    destruct (bit I c); [apply H1; reflexivity|apply H2; discriminate].
Qed.

Lemma single_loop_2q n t c b l f body v :
  length v = 2 ^ n -> NoDup l ->
  (forall I, In I l <-> I < 2 ^ n /\ bit I t = b /\ bit I c = true) ->
  (forall I w, I < length w -> body I w = Ok (list_set w I (f (nth I w C0)))) ->
  exists v', foreach l body v = Ok v'
   /\ vec_is n (fun I => if bit I c && Bool.eqb (bit I t) b then f (nth I v C0) else nth I v C0) v'.
Proof.
  intros Hv ND Hl HB.
  destruct (single_loop n l (fun I => bit I t = b /\ bit I c = true) f body v) as (v' & E & Len & H); auto.
  - intros I w HI Hw. apply HB. apply Hl in HI. lia.
  - exists v'; split; [exact E|]. split; [congruence|]. intros I HI. destruct (H I HI) as [H1 H2].
    destruct (Bool.eqb_spec (bit I t) b), (bit I c) eqn:?; cbn [andb]; auto; apply H2; intuition congruence.
Qed.

(** what a controlled 2x2 block does *)
Definition ctrl_act (a b c' d : C) (t c : nat) (psi : state) : state := fun I =>
  if bit I c then
    if bit I t then (c' * psi (upd I t false) + d * psi (upd I t true))%C
    else (a * psi (upd I t false) + b * psi (upd I t true))%C
  else psi I.

(** one lemma for both index orders: the loops are abstracted by their index lists *)
Lemma ctrl_correct n t c a b c' d v
  (L2 : (nat -> nat -> list C -> res (list C)) -> list C -> res (list C))
  (L2' : (nat -> nat -> list C -> res (list C)) -> list C -> res (list C))
  (L10 L11 : (nat -> list C -> res (list C)) -> list C -> res (list C)) l0 l1 :
  length v = 2 ^ n -> t < n -> c < n -> c <> t ->
  (forall body w, L2 body w = foreach l0 (fun I => body I (I + 2 ^ t)) w) ->
  (forall body w, L2' body w = foreach l0 (fun I => body I (I + 2 ^ t)) w) ->
  (forall body w, L10 body w = foreach l0 body w) ->
  (forall body w, L11 body w = foreach l1 body w) ->
  NoDup l0 -> NoDup l1 ->
  (forall I, In I l0 <-> I < 2 ^ n /\ bit I t = false /\ bit I c = true) ->
  (forall I, In I l1 <-> I < 2 ^ n /\ bit I t = true /\ bit I c = true) ->
  block_ok a b c' d ->
  exists v',
  (if above (abs2 a d) && above (abs2 b c') then L2 (body_full a b c' d) v
   else if above (abs2 a d) then
     do v <- (if negb (Ceqb a C1) then L10 (body_scale a) v else Ok v);
     (if negb (Ceqb d C1) then L11 (body_scale d) v else Ok v)
   else if cpp_chained_eq_one b c' then L2' body_swap v
   else L2' (body_off b c') v) = Ok v' /\ vec_is n (ctrl_act a b c' d t c (amp v)) v'.
Proof.
  intros Hv Ht Hcn Hct E2 E2' E10 E11 ND0 ND1 Hl0 Hl1 (HD & HO & HX). unfold abs2.
  pose proof (pow2_pos t) as Pt.
  destruct (above (Cabs a + Cabs d)) eqn:ED; [destruct (above (Cabs b + Cabs c')) eqn:EO|]; cbn [andb].
  - rewrite E2.
    destruct (pair_loop_2q n t c l0 (fun x0 x1 => a * x0 + b * x1)%C (fun x0 x1 => c' * x0 + d * x1)%C
                (body_full a b c' d) v Hv Ht Hct ND0 Hl0) as (v' & E & Len & H).
    { intros I w HI. apply body_full_ok; lia. }
    exists v'; split; [exact E|]. split; [exact Len|]. intros I HI. rewrite (H I HI).
    unfold ctrl_act, amp. destruct (bit I c), (bit I t); reflexivity.
  - destruct (HO (above_false _ EO)) as [Hb Hc']. subst b c'.
    assert (HA : exists v1, (if negb (Ceqb a C1) then L10 (body_scale a) v else Ok v) = Ok v1 /\
      vec_is n (fun I => if bit I c && Bool.eqb (bit I t) false then (a * nth I v C0)%C else nth I v C0) v1).
    { destruct (Ceqb_spec a C1) as [E1|E1]; cbn [negb].
      - exists v; split; [reflexivity|]. split; [exact Hv|]. intros I HI. rewrite E1.
        destruct (_ && _); [ring|reflexivity].
      - rewrite E10. eapply single_loop_2q; eauto. intros I w HI; apply body_scale_ok; exact HI. }
    destruct HA as (v1 & -> & Hv1 & R1). rewrite bind_Ok.
    assert (HB : exists v2, (if negb (Ceqb d C1) then L11 (body_scale d) v1 else Ok v1) = Ok v2 /\
      vec_is n (fun I => if bit I c && Bool.eqb (bit I t) true then (d * nth I v1 C0)%C else nth I v1 C0) v2).
    { destruct (Ceqb_spec d C1) as [E1|E1]; cbn [negb].
      - exists v1; split; [reflexivity|]. split; [exact Hv1|]. intros I HI. rewrite E1.
        destruct (_ && _); [ring|reflexivity].
      - rewrite E11. eapply single_loop_2q; eauto. intros I w HI; apply body_scale_ok; exact HI. }
    destruct HB as (v2 & -> & Hv2 & R2). exists v2; split; [reflexivity|]. split; [exact Hv2|].
    intros I HI. rewrite (R2 I HI), (R1 I HI). unfold ctrl_act, amp.
    destruct (bit I c), (bit I t) eqn:Eb; cbn [Bool.eqb andb]; try reflexivity.
    + rewrite (upd_id' I t true Eb). ring.
    + rewrite (upd_id' I t false Eb). ring.
  - destruct (HD (above_false _ ED)) as [Ha Hd]. subst a d. specialize (HX (above_false _ ED)).
    rewrite chained_spec. destruct (Ceqb_spec b c') as [EX|EX]; rewrite E2'.
    + specialize (HX EX). subst c' b.
      destruct (pair_loop_2q n t c l0 (fun x0 x1 => x1) (fun x0 x1 => x0) body_swap v Hv Ht Hct ND0 Hl0)
        as (v' & E & Len & H).
      { intros I w HI. apply body_swap_ok; lia. }
      exists v'; split; [exact E|]. split; [exact Len|]. intros I HI. rewrite (H I HI).
      unfold ctrl_act, amp. destruct (bit I c), (bit I t); try reflexivity; ring.
    + destruct (pair_loop_2q n t c l0 (fun x0 x1 => b * x1)%C (fun x0 x1 => c' * x0)%C (body_off b c') v Hv Ht Hct ND0 Hl0)
        as (v' & E & Len & H).
      { intros I w HI. apply body_off_ok; lia. }
      exists v'; split; [exact E|]. split; [exact Len|]. intros I HI. rewrite (H I HI).
      unfold ctrl_act, amp. destruct (bit I c), (bit I t); try reflexivity; ring.
Qed.

Lemma apply2_A_correct n t c a b c' d v :
  length v = 2 ^ n -> t < c -> c < n -> block_ok a b c' d ->
  exists v', apply2_ctrl_A (2 ^ n) t c a b c' d v = Ok v' /\ vec_is n (ctrl_act a b c' d t c (amp v)) v'.
Proof.
  intros Hv Htc Hc HB. unfold apply2_ctrl_A.
  apply (ctrl_correct n t c a b c' d v
    (fun body => nest2 (2 ^ n) (2 * 2 ^ c) 0 (2 ^ c) (2 ^ c + 2 ^ t) (2 ^ c + 2 ^ t) (2 * 2 ^ t) (2 ^ c) (2 * 2 ^ c) body)
    (fun body => nest2 (2 ^ n) (2 * 2 ^ c) 0 (2 ^ c) (2 ^ c + 2 ^ t) (2 ^ c + 2 ^ t) (2 * 2 ^ t) (2 ^ c) (2 * 2 ^ c) body)
    (fun body => nest1 (2 ^ n) (2 * 2 ^ c) (2 ^ c) (2 ^ c + 2 ^ t) (2 * 2 ^ t) (2 ^ c) (2 * 2 ^ c) body)
    (fun body => nest1 (2 ^ n) (2 * 2 ^ c) (2 ^ c + 2 ^ t) (2 ^ c + 2 ^ t + 2 ^ t) (2 * 2 ^ t) (2 ^ c) (2 * 2 ^ c) body)
    (nid n t c false true) (nid n t c true true)); auto; try lia.
  - intros. apply nestA2; assumption.
  - intros. apply nestA2; assumption.
  - intros. rewrite <- (nestA1 n t c Htc Hc false). rewrite Nat.mul_0_l, Nat.add_0_r. reflexivity.
  - intros. rewrite <- (nestA1 n t c Htc Hc true). replace (b2n true * 2 ^ t) with (2 ^ t) by (simpl; lia). reflexivity.
  - apply NoDup_2q; assumption.
  - apply NoDup_2q; assumption.
  - intros I. apply in_2q; assumption.
  - intros I. apply in_2q; assumption.
Qed.

Lemma apply2_B_correct n t c a b c' d v :
  length v = 2 ^ n -> c < t -> t < n -> block_ok a b c' d ->
  exists v', apply2_ctrl_B (2 ^ n) t c a b c' d v = Ok v' /\ vec_is n (ctrl_act a b c' d t c (amp v)) v'.
Proof.
  intros Hv Htc Hc HB. unfold apply2_ctrl_B.
  apply (ctrl_correct n t c a b c' d v
    (fun body => nest2 (2 ^ n) (2 ^ t * 2) (2 ^ t) (2 ^ c) (2 ^ t + 2 ^ c) (2 ^ c * 2) (2 ^ c * 2) (2 ^ t) (2 ^ t * 2) body)
    (fun body => nest2 (2 ^ n) (2 ^ t) 0 (2 ^ c) (2 ^ t + 2 ^ c) (2 ^ c * 2) (2 ^ c * 2) (2 ^ t) (2 ^ t * 2) body)
    (fun body => nest_for (2 ^ n) (2 ^ t * 2) (2 ^ t) (2 ^ c) (2 ^ c * 2) body)
    (fun body => nest1 (2 ^ n) (2 ^ t * 2) (2 ^ t + 2 ^ c) (2 ^ t + 2 ^ c + 2 ^ c) (2 ^ c * 2) (2 ^ t) (2 ^ t * 2) body)
    (nid n c t true false) (nid n c t true true)); auto; try lia.
  - intros. apply nestB2; assumption.
  - intros. apply nestB2'; assumption.
  - intros. apply nestBfor; assumption.
  - intros. apply nestB1; assumption.
  - apply NoDup_2q; assumption.
  - apply NoDup_2q; assumption.
  - intros I. rewrite in_2q by assumption. tauto.
  - intros I. rewrite in_2q by assumption. tauto.
Qed.
