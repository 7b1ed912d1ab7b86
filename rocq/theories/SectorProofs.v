(** Ladder operators, excitations and their exponentials on states with a given additive quantum
    number: electron number, twice S_z, and the bits of the irrep. *)
From Coq Require Import Reals String List Arith ZArith NArith Bool Lia Lra.
From Verif Require Import CBase Result Bits Spec OpSpec SQSpec ExpSpec ExpProofs AnsatzSpec SpinSpec.
Import ListNotations.
Local Open Scope nat_scope.

(** only determinants in S occur in the state *)
Definition Within (S : nat -> Prop) (psi : state) : Prop := forall I, psi I <> C0 -> S I.
(** the sum of w over the occupied spin orbitals of I, and over a list *)
Definition wlist (w : nat -> Z) (l : list nat) : Z := fold_right Z.add 0%Z (map w l).
Definition weight (w : nat -> Z) (n I : nat) : Z := wlist w (filter (bit I) (seq 0 n)).

Lemma wlist_app w a b : wlist w (a ++ b) = (wlist w a + wlist w b)%Z.
Proof. unfold wlist. induction a as [|x a IH]; cbn; [reflexivity|]. rewrite IH. lia. Qed.
Lemma weight_upd w n I p : p < n -> bit I p = false -> weight w n (upd I p true) = (weight w n I + w p)%Z.
Proof.
  intros Lp B. unfold weight. replace n with (p + S (n - S p)) by lia. rewrite seq_app. cbn [plus seq]. rewrite !filter_app. cbn [filter]. rewrite bit_upd, Nat.eqb_refl, B.
  assert (E : forall s k, ~ (s <= p < s + k) -> filter (bit (upd I p true)) (seq s k) = filter (bit I) (seq s k)). { intros s k H. apply filter_ext_in. intros q Iq. apply in_seq in Iq. rewrite bit_upd. destruct (Nat.eqb_spec q p); [lia|reflexivity]. }
  rewrite !E by lia. rewrite !wlist_app. unfold wlist at 2. cbn [map fold_right]. fold (wlist w (filter (bit I) (seq (S p) (n - S p)))). lia.
Qed.
Lemma weight_clear w n I p : p < n -> bit I p = true -> weight w n (upd I p false) = (weight w n I - w p)%Z.
Proof.
  intros Lp B. assert (E : upd (upd I p false) p true = I). { apply bits_ext. intros q. rewrite !bit_upd. destruct (Nat.eqb_spec q p) as [->|]; [now rewrite B|reflexivity]. }
  pose proof (weight_upd w n (upd I p false) p Lp) as H. rewrite bit_upd, Nat.eqb_refl in H. specialize (H eq_refl). rewrite E in H. lia.
Qed.
Lemma cmul_nonzero a b : (a * b)%C <> C0 -> b <> C0.
Proof. intros H ->. apply H. apply C_ext; cbn; ring. Qed.
Section Weight.
  Variables (w : nat -> Z) (n : nat).
  Lemma create_within S p psi : p < n -> Within (fun I => S (weight w n I)) psi -> Within (fun I => S (weight w n I - w p)%Z) (create p psi).
  Proof. intros Lp H I HI. unfold create in HI. destruct (bit I p) eqn:B; [|contradiction]. apply cmul_nonzero, H in HI. now rewrite weight_clear in HI. Qed.
  Lemma annihilate_within S p psi : p < n -> Within (fun I => S (weight w n I)) psi -> Within (fun I => S (weight w n I + w p)%Z) (annihilate p psi).
  Proof. intros Lp H I HI. unfold annihilate in HI. destruct (bit I p) eqn:B; [contradiction|]. apply cmul_nonzero, H in HI. now rewrite weight_upd in HI. Qed.
  Lemma raise_within S p psi : p < n -> Within (fun I => S (weight w n I)) psi -> Within (fun I => S (weight w n I - w p)%Z) (raise p psi).
  Proof. intros Lp H I HI. unfold raise in HI. destruct (bit I p) eqn:B; [|contradiction]. apply H in HI. now rewrite weight_clear in HI. Qed.
  Lemma lower_within S p psi : p < n -> Within (fun I => S (weight w n I)) psi -> Within (fun I => S (weight w n I + w p)%Z) (lower p psi).
  Proof. intros Lp H I HI. unfold lower in HI. destruct (bit I p) eqn:B; [contradiction|]. apply H in HI. now rewrite weight_upd in HI. Qed.
  Lemma cre_within (f : nat -> state -> state) : (forall S p psi, p < n -> Within (fun I => S (weight w n I)) psi -> Within (fun I => S (weight w n I - w p)%Z) (f p psi)) ->
    forall l, Forall (fun p => p < n) l -> forall S psi, Within (fun I => S (weight w n I)) psi -> Within (fun I => S (weight w n I - wlist w l)%Z) (fold_right f psi l).
  Proof.
    intros Hf. induction 1 as [|p l Lp _ IH]; intros S psi H; cbn [fold_right]; [intros I HI; unfold wlist; cbn; rewrite Z.sub_0_r; now apply H|].
    intros I HI. specialize (IH S psi H). apply (Hf (fun z => S (z - wlist w l)%Z) p _ Lp IH) in HI. unfold wlist in *. cbn [map fold_right]. replace (weight w n I - (w p + fold_right Z.add 0 (map w l)))%Z with (weight w n I - w p - fold_right Z.add 0 (map w l))%Z by lia. exact HI.
  Qed.
  Lemma ann_within (f : nat -> state -> state) : (forall S p psi, p < n -> Within (fun I => S (weight w n I)) psi -> Within (fun I => S (weight w n I + w p)%Z) (f p psi)) ->
    forall l, Forall (fun p => p < n) l -> forall S psi, Within (fun I => S (weight w n I)) psi -> Within (fun I => S (weight w n I + wlist w l)%Z) (fold_right f psi l).
  Proof.
    intros Hf. induction 1 as [|p l Lp _ IH]; intros S psi H; cbn [fold_right]; [intros I HI; unfold wlist; cbn; rewrite Z.add_0_r; now apply H|].
    intros I HI. specialize (IH S psi H). apply (Hf (fun z => S (z + wlist w l)%Z) p _ Lp IH) in HI. unfold wlist in *. cbn [map fold_right]. replace (weight w n I + (w p + fold_right Z.add 0 (map w l)))%Z with (weight w n I + w p + fold_right Z.add 0 (map w l))%Z by lia. exact HI.
  Qed.
  (** a term that moves the quantum number only within S keeps S *)
  Definition Keeps (S : Z -> Prop) (t : fterm) : Prop := Forall (fun p => p < n) (fcre t) /\ Forall (fun p => p < n) (fann t) /\ forall z, S (z - wlist w (fcre t) + wlist w (fann t))%Z -> S z.
  Lemma act_within qe S o psi : Forall (Keeps S) o -> Within (fun I => S (weight w n I)) psi -> Within (fun I => S (weight w n I)) (act qe o psi).
  Proof.
    intros F H I HI. assert (G : exists t, In t o /\ (if qe then qladder_act (fcre t) (fann t) psi I else ladder_act (fcre t) (fann t) psi I) <> C0).
    { unfold act in HI. clear F. destruct qe; [unfold qexc_act in HI|unfold fermi_act in HI]; (induction o as [|t o IH]; [now elim HI|]); rewrite Csum_cons in HI;
        match type of HI with (?a * ?b + ?c)%C <> _ => destruct (Ceq_dec b C0) as [E|NE]; [|exists t; split; [now left|exact NE]] end;
        (destruct IH as (t' & It & Ht); [intros E'; apply HI; rewrite E, E'; apply C_ext; cbn; ring|exists t'; split; [now right|exact Ht]]). }
    destruct G as (t & It & Ht). rewrite Forall_forall in F. destruct (F t It) as (F1 & F2 & FS). apply FS.
    destruct qe; [unfold qladder_act in Ht|unfold ladder_act in Ht].
    - exact (cre_within raise raise_within _ F1 (fun z => S (z + wlist w (fann t))%Z) _ (ann_within lower lower_within _ F2 S psi H) I Ht).
    - exact (cre_within create create_within _ F1 (fun z => S (z + wlist w (fann t))%Z) _ (ann_within annihilate annihilate_within _ F2 S psi H) I Ht).
  Qed.
End Weight.
Lemma iter_within S A psi : (forall psi, Within S psi -> Within S (A psi)) -> Within S psi -> forall k, Within S (Nat.iter k A psi).
Proof. intros HA HP. induction k as [|k IH]; [exact HP|]. cbn [Nat.iter]. now apply HA. Qed.
Lemma exp_within S c A psi phi : (forall psi, Within S psi -> Within S (A psi)) -> is_exp c A psi phi -> Within S psi -> Within S phi.
Proof.
  intros HA H HP I HI. destruct (Classical_Prop.classic (S I)) as [Y|N]; [exact Y|exfalso]. apply HI.
  assert (Z : forall k, Nat.iter k A psi I = C0). { intros k. destruct (Ceq_dec (Nat.iter k A psi I) C0) as [E|E]; [exact E|]. elim N. now apply (iter_within S A psi HA HP k). }
  assert (P : forall m, exp_partial c A psi I m = C0). { intros m. unfold exp_partial. apply Csum_zero. intros k _. rewrite (Z k). apply C_ext; cbn; ring. }
  destruct (H I) as (H1 & H2). apply C_ext; [apply (UL_sequence _ _ _ H1)|apply (UL_sequence _ _ _ H2)]; (eapply Un_cv_ext; [intros m; rewrite P; reflexivity|]); apply cv_const.
Qed.
Lemma product_within S l : Forall (fun x => forall psi, Within S psi -> Within S (snd x psi)) l -> forall psi phi, exp_product l psi phi -> Within S psi -> Within S phi.
Proof.
  induction 1 as [|(c, A) l H _ IH]; intros psi phi HP HW; cbn [exp_product] in HP; [intros I HI; rewrite HP in HI; now apply HW|]. destruct HP as (chi & H1 & H2). exact (IH chi phi H2 (exp_within S c A psi chi H H1 HW)).
Qed.
