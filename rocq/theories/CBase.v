(** Exact complex numbers over Coq's standard reals.  [complex<double>] of the
    code is modelled by this type (no rounding). *)
From Coq Require Import Reals Lra List Arith Lia Ring Field Bool Permutation.
Import ListNotations.
Local Open Scope R_scope.

Record C : Type := mkC { Re : R; Im : R }.

Declare Scope C_scope.
Delimit Scope C_scope with C.
Bind Scope C_scope with C.

Definition RtoC (x : R) : C := mkC x 0.
Definition C0 : C := mkC 0 0.
Definition C1 : C := mkC 1 0.
Definition Ci : C := mkC 0 1.
Definition Cadd (a b : C) : C := mkC (Re a + Re b) (Im a + Im b).
Definition Cneg (a : C) : C := mkC (- Re a) (- Im a).
Definition Csub (a b : C) : C := mkC (Re a - Re b) (Im a - Im b).
Definition Cmul (a b : C) : C :=
  mkC (Re a * Re b - Im a * Im b) (Re a * Im b + Im a * Re b).
Definition Cconj (a : C) : C := mkC (Re a) (- Im a).
(** std::norm *)
Definition Cnorm2 (a : C) : R := Re a * Re a + Im a * Im a.
(** std::abs *)
Definition Cabs (a : C) : R := sqrt (Cnorm2 a).
(** std::exp (i * x) *)
Definition Ccis (x : R) : C := mkC (cos x) (sin x).

Infix "+" := Cadd : C_scope.
Infix "*" := Cmul : C_scope.
Infix "-" := Csub : C_scope.
Notation "- x" := (Cneg x) : C_scope.

Lemma C_ext (a b : C) : Re a = Re b -> Im a = Im b -> a = b.
Proof. destruct a, b; simpl; intros; subst; reflexivity. Qed.

Ltac csolve :=
  apply C_ext; unfold C0, C1, Ci, RtoC, Cadd, Cneg, Csub, Cmul, Cconj; simpl;
  try ring; try lra.

Lemma C_ring : ring_theory C0 C1 Cadd Cmul Csub Cneg (@eq C).
Proof. constructor; intros; csolve. Qed.

Add Ring Cring : C_ring.

Lemma Ceq_dec (a b : C) : {a = b} + {a <> b}.
Proof.
  destruct (Req_EM_T (Re a) (Re b)) as [H1|H1].
  - destruct (Req_EM_T (Im a) (Im b)) as [H2|H2].
    + left; apply C_ext; assumption.
    + right; intros H; apply H2; rewrite H; reflexivity.
  - right; intros H; apply H1; rewrite H; reflexivity.
Defined.

(** Comparisons of the code as booleans. *)
Definition Ceqb (a b : C) : bool := if Ceq_dec a b then true else false.
Definition Rltb (x y : R) : bool := if Rlt_dec x y then true else false.
Definition Rleb (x y : R) : bool := if Rle_dec x y then true else false.

Lemma Ceqb_spec a b : reflect (a = b) (Ceqb a b).
Proof. unfold Ceqb; destruct (Ceq_dec a b); constructor; assumption. Qed.
Lemma Rltb_spec x y : reflect (x < y) (Rltb x y).
Proof. unfold Rltb; destruct (Rlt_dec x y); constructor; assumption. Qed.
Lemma Rleb_spec x y : reflect (x <= y) (Rleb x y).
Proof. unfold Rleb; destruct (Rle_dec x y); constructor; assumption. Qed.
Lemma Rltb_true x y : x < y -> Rltb x y = true.
Proof. intros; destruct (Rltb_spec x y); [reflexivity|contradiction]. Qed.
Lemma Rltb_false x y : y <= x -> Rltb x y = false.
Proof. intros; destruct (Rltb_spec x y); [lra|reflexivity]. Qed.
Lemma Ceqb_refl a : Ceqb a a = true.
Proof. destruct (Ceqb_spec a a); congruence. Qed.
Lemma Ceqb_neq a b : a <> b -> Ceqb a b = false.
Proof. destruct (Ceqb_spec a b); congruence. Qed.

Lemma Cnorm2_nonneg a : 0 <= Cnorm2 a.
Proof. unfold Cnorm2. nra. Qed.
Lemma Cabs_nonneg a : 0 <= Cabs a.
Proof. apply sqrt_pos. Qed.
Lemma Cabs_C0 : Cabs C0 = 0.
Proof. unfold Cabs, Cnorm2; simpl. replace (0*0+0*0) with 0 by ring. apply sqrt_0. Qed.
Lemma Cabs_C1 : Cabs C1 = 1.
Proof. unfold Cabs, Cnorm2; simpl. replace (1*1+0*0) with 1 by ring. apply sqrt_1. Qed.
Lemma Cnorm2_0 a : Cnorm2 a = 0 -> a = C0.
Proof. unfold Cnorm2; intros H; apply C_ext; simpl; nra. Qed.
Lemma Cabs_0 a : Cabs a = 0 -> a = C0.
Proof.
  unfold Cabs; intros H. apply Cnorm2_0.
  apply sqrt_eq_0; [apply Cnorm2_nonneg|exact H].
Qed.
Lemma Cabs_pos a : a <> C0 -> 0 < Cabs a.
Proof.
  intros H. destruct (Req_dec (Cabs a) 0) as [E|E].
  - exfalso; apply H, Cabs_0, E.
  - pose proof (Cabs_nonneg a); lra.
Qed.
Lemma Cabs_sq a : Cabs a * Cabs a = Cnorm2 a.
Proof. apply sqrt_sqrt, Cnorm2_nonneg. Qed.
Lemma Cnorm2_mul a b : Cnorm2 (a * b)%C = Cnorm2 a * Cnorm2 b.
Proof. unfold Cnorm2, Cmul; simpl; ring. Qed.
Lemma Cabs_mul a b : Cabs (a * b)%C = Cabs a * Cabs b.
Proof. unfold Cabs. rewrite Cnorm2_mul, sqrt_mult; auto using Cnorm2_nonneg. Qed.
Lemma Cabs_conj a : Cabs (Cconj a) = Cabs a.
Proof. unfold Cabs, Cnorm2, Cconj; simpl. f_equal; ring. Qed.
Lemma Cabs_neg a : Cabs (- a)%C = Cabs a.
Proof. unfold Cabs, Cnorm2, Cneg; simpl. f_equal; ring. Qed.
Lemma Cabs_cis x : Cabs (Ccis x) = 1.
Proof.
  unfold Cabs, Cnorm2, Ccis; simpl. pose proof (sin2_cos2 x) as H. unfold Rsqr in H.
  replace (cos x * cos x + sin x * sin x) with 1 by lra. apply sqrt_1.
Qed.
Lemma Cabs_RtoC x : Cabs (RtoC x) = Rabs x.
Proof.
  unfold Cabs, Cnorm2, RtoC; simpl. replace (x*x+0*0) with (Rsqr x) by (unfold Rsqr; ring).
  apply sqrt_Rsqr_abs.
Qed.

Lemma Cconj_invol a : Cconj (Cconj a) = a.
Proof. csolve. Qed.
Lemma Cconj_add a b : Cconj (a + b)%C = (Cconj a + Cconj b)%C.
Proof. csolve. Qed.
Lemma Cconj_mul a b : Cconj (a * b)%C = (Cconj a * Cconj b)%C.
Proof. csolve. Qed.
Lemma Cconj_neg a : Cconj (- a)%C = (- Cconj a)%C.
Proof. csolve. Qed.
Lemma Cconj_C0 : Cconj C0 = C0.  Proof. csolve. Qed.
Lemma Cconj_C1 : Cconj C1 = C1.  Proof. csolve. Qed.
Lemma Cmul_conj a : (Cconj a * a)%C = RtoC (Cnorm2 a).
Proof. apply C_ext; unfold Cnorm2; simpl; ring. Qed.
Lemma Ccis_add x y : Ccis (x + y) = (Ccis x * Ccis y)%C.
Proof. apply C_ext; simpl; [rewrite cos_plus|rewrite sin_plus]; ring. Qed.
Lemma Ccis_0 : Ccis 0 = C1.
Proof. apply C_ext; simpl; [apply cos_0|apply sin_0]. Qed.
Lemma Ccis_neg x : Ccis (- x) = Cconj (Ccis x).
Proof. apply C_ext; simpl; [apply cos_neg|apply sin_neg]. Qed.
Lemma Cnorm2_cis x : Cnorm2 (Ccis x) = 1.
Proof.
  unfold Cnorm2, Ccis; simpl. pose proof (sin2_cos2 x) as H. unfold Rsqr in H. lra.
Qed.
Lemma Ci_sq : (Ci * Ci)%C = (- C1)%C.
Proof. csolve. Qed.
Lemma Cmul_integral a b : (a * b)%C = C0 -> a = C0 \/ b = C0.
Proof.
  intros H. assert (E : Cabs a * Cabs b = 0) by (rewrite <- Cabs_mul, H; apply Cabs_C0).
  destruct (Rmult_integral _ _ E); [left|right]; apply Cabs_0; assumption.
Qed.
Lemma C1_neq_C0 : C1 <> C0.
Proof. intros H; injection H; lra. Qed.
Lemma Cmul_0_l a : (C0 * a)%C = C0. Proof. ring. Qed.
Lemma Cmul_0_r a : (a * C0)%C = C0. Proof. ring. Qed.
Lemma Cmul_1_l a : (C1 * a)%C = a. Proof. ring. Qed.
Lemma Cmul_1_r a : (a * C1)%C = a. Proof. ring. Qed.
Lemma Cadd_0_l a : (C0 + a)%C = a. Proof. ring. Qed.
Lemma Cadd_0_r a : (a + C0)%C = a. Proof. ring. Qed.

(** Finite sums *)
Definition Csum {A} (f : A -> C) (l : list A) : C :=
  fold_right (fun x acc => (f x + acc)%C) C0 l.

Lemma Csum_nil {A} (f : A -> C) : Csum f [] = C0.
Proof. reflexivity. Qed.
Lemma Csum_cons {A} (f : A -> C) x l : Csum f (x :: l) = (f x + Csum f l)%C.
Proof. reflexivity. Qed.
Lemma Csum_app {A} (f : A -> C) l1 l2 : Csum f (l1 ++ l2) = (Csum f l1 + Csum f l2)%C.
Proof.
  induction l1 as [|x l1 IH]; simpl app; rewrite ?Csum_cons, ?Csum_nil.
  - ring.
  - rewrite IH; ring.
Qed.
Lemma Csum_ext {A} (f g : A -> C) l :
  (forall x, In x l -> f x = g x) -> Csum f l = Csum g l.
Proof.
  induction l as [|x l IH]; intros H; [reflexivity|].
  rewrite !Csum_cons, IH, (H x (or_introl eq_refl)); [reflexivity|].
  intros y Hy; apply H; right; exact Hy.
Qed.
Lemma Csum_add {A} (f g : A -> C) l :
  Csum (fun x => (f x + g x)%C) l = (Csum f l + Csum g l)%C.
Proof. induction l as [|x l IH]; rewrite ?Csum_cons, ?Csum_nil, ?IH; ring. Qed.
Lemma Csum_mul_l {A} (a : C) (f : A -> C) l :
  Csum (fun x => (a * f x)%C) l = (a * Csum f l)%C.
Proof. induction l as [|x l IH]; rewrite ?Csum_cons, ?Csum_nil, ?IH; ring. Qed.
Lemma Csum_mul_r {A} (a : C) (f : A -> C) l :
  Csum (fun x => (f x * a)%C) l = (Csum f l * a)%C.
Proof. induction l as [|x l IH]; rewrite ?Csum_cons, ?Csum_nil, ?IH; ring. Qed.
Lemma Csum_zero {A} (f : A -> C) l : (forall x, In x l -> f x = C0) -> Csum f l = C0.
Proof.
  induction l as [|x l IH]; intros H; [reflexivity|].
  rewrite Csum_cons, IH, (H x (or_introl eq_refl)); [ring|].
  intros y Hy; apply H; right; exact Hy.
Qed.
Lemma Csum_map {A B} (g : A -> B) (f : B -> C) l : Csum f (map g l) = Csum (fun x => f (g x)) l.
Proof. induction l as [|x l IH]; [reflexivity|]. simpl map; rewrite !Csum_cons, IH; reflexivity. Qed.
Lemma Csum_conj {A} (f : A -> C) l : Cconj (Csum f l) = Csum (fun x => Cconj (f x)) l.
Proof.
  induction l as [|x l IH]; [rewrite !Csum_nil; apply Cconj_C0|].
  rewrite !Csum_cons, Cconj_add, IH; reflexivity.
Qed.
Lemma Csum_swap {A B} (f : A -> B -> C) l1 l2 :
  Csum (fun x => Csum (f x) l2) l1 = Csum (fun y => Csum (fun x => f x y) l1) l2.
Proof.
  induction l1 as [|x l1 IH].
  - rewrite Csum_nil. symmetry; apply Csum_zero; reflexivity.
  - rewrite Csum_cons, IH, <- Csum_add. apply Csum_ext; intros; rewrite Csum_cons; reflexivity.
Qed.
Lemma Csum_perm {A} (f : A -> C) l1 l2 :
  Permutation.Permutation l1 l2 -> Csum f l1 = Csum f l2.
Proof.
  induction 1; rewrite ?Csum_cons; try reflexivity; try ring.
  - rewrite IHPermutation; reflexivity.
  - congruence.
Qed.
