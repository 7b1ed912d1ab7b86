(** Derivatives of states and energies along one exponential. *)
From Coq Require Import Reals List Arith Bool Lia Lra FunctionalExtensionality.
From Verif Require Import CBase Bits Spec OpSpec GateModel SafeProofs LibProofs FermiProofs ExpSpec ExpProofs CompactGsd TwoLevel GradSpec PropAnsatz.
Import ListNotations.
Local Open Scope R_scope.

Definition dC (f : R -> C) (x : R) (d : C) : Prop := derivable_pt_lim (fun y => Re (f y)) x (Re d) /\ derivable_pt_lim (fun y => Im (f y)) x (Im d).
Definition dS (f : R -> state) (x : R) (d : state) : Prop := forall J, dC (fun y => f y J) x (d J).
Lemma d_ext f g x d : (forall y, f y = g y) -> derivable_pt_lim f x d -> derivable_pt_lim g x d.
Proof. intros E H. replace g with f; [exact H|]. extensionality y. apply E. Qed.
Lemma dC_ext f g x d e : (forall y, f y = g y) -> d = e -> dC f x d -> dC g x e.
Proof. intros E <- (H1 & H2). split; [eapply d_ext; [|exact H1]|eapply d_ext; [|exact H2]]; intros y; cbn beta; now rewrite E. Qed.
Lemma dC_const c x : dC (fun _ => c) x C0.
Proof. split; apply derivable_pt_lim_const. Qed.
Lemma dC_add f g x d e : dC f x d -> dC g x e -> dC (fun y => f y + g y)%C x (d + e)%C.
Proof. intros (A1 & A2) (B1 & B2). split; [apply (derivable_pt_lim_plus _ _ x _ _ A1 B1)|apply (derivable_pt_lim_plus _ _ x _ _ A2 B2)]. Qed.
Lemma dC_mul f g x d e : dC f x d -> dC g x e -> dC (fun y => f y * g y)%C x (d * g x + f x * e)%C.
Proof.
  intros (A1 & A2) (B1 & B2). split.
  - pose proof (derivable_pt_lim_minus _ _ x _ _ (derivable_pt_lim_mult _ _ x _ _ A1 B1) (derivable_pt_lim_mult _ _ x _ _ A2 B2)) as H. unfold mult_fct, minus_fct in H.
    replace (Re (d * g x + f x * e)%C) with (Re d * Re (g x) + Re (f x) * Re e - (Im d * Im (g x) + Im (f x) * Im e)) by (cbn; ring). exact H.
  - pose proof (derivable_pt_lim_plus _ _ x _ _ (derivable_pt_lim_mult _ _ x _ _ A1 B2) (derivable_pt_lim_mult _ _ x _ _ A2 B1)) as H. unfold mult_fct, plus_fct in H.
    replace (Im (d * g x + f x * e)%C) with (Re d * Im (g x) + Re (f x) * Im e + (Im d * Re (g x) + Im (f x) * Re e)) by (cbn; ring). exact H.
Qed.
Lemma dC_scale c g x e : dC g x e -> dC (fun y => c * g y)%C x (c * e)%C.
Proof. intros H. eapply dC_ext; [| |exact (dC_mul _ _ x _ _ (dC_const c x) H)]; [reflexivity|cbn beta; ring]. Qed.
Lemma dC_conj f x d : dC f x d -> dC (fun y => Cconj (f y)) x (Cconj d).
Proof. intros (A1 & A2). split; [exact A1|]. cbn. apply (derivable_pt_lim_opp _ x _ A2). Qed.
Lemma dC_sum {X} (f : X -> R -> C) (d : X -> C) x l : (forall i, In i l -> dC (f i) x (d i)) -> dC (fun y => Csum (fun i => f i y) l) x (Csum d l).
Proof.
  induction l as [|i l IH]; intros H; [exact (dC_const C0 x)|]. rewrite Csum_cons. eapply dC_ext; [| |exact (dC_add _ _ x _ _ (H i (or_introl eq_refl)) (IH (fun j Ij => H j (or_intror Ij))))]; [intros y; now rewrite Csum_cons|reflexivity].
Qed.
Lemma dC_inner n f g x d e : dS f x d -> dS g x e -> dC (fun y => inner n (f y) (g y)) x (inner n d (g x) + inner n (f x) e)%C.
Proof.
  intros A B. unfold inner. rewrite <- Csum_add. apply (dC_sum (fun J y => (Cconj (f y J) * g y J)%C)). intros J _. apply dC_mul; [apply dC_conj, A|apply B].
Qed.
Lemma dS_gate g f x d : dS f x d -> dS (fun y => gate_act g (f y)) x (gate_act g d).
Proof.
  intros H J. unfold gate_act. destruct (Nat.eqb (gtarget g) (gcontrol g)).
  - unfold act1. apply dC_add; apply dC_scale, H.
  - unfold act2. repeat apply dC_add; apply dC_scale, H.
Qed.
Lemma dS_circ gs : forall f x d, dS f x d -> dS (fun y => circ_act gs (f y)) x (circ_act gs d).
Proof.
  induction gs as [|g gs IH]; intros f x d H; [exact H|]. exact (IH _ x _ (dS_gate g f x d H)).
Qed.
Lemma dS_op o f x d : dS f x d -> dS (fun y => op_act o (f y)) x (op_act o d).
Proof. intros H J. unfold op_act. apply (dC_sum (fun t y => (fst t * circ_act (snd t) (f y) J)%C)). intros t _. apply dC_scale. apply (dS_circ (snd t) f x d H). Qed.
Lemma dC_real f x d : derivable_pt_lim f x d -> dC (fun y => RtoC (f y)) x (RtoC d).
Proof. intros H. split; [exact H|apply derivable_pt_lim_const]. Qed.
Lemma dS_rot F r f x d : dS f x d -> dS (fun y => rot F r (f y)) x (rot F r d).
Proof. intros H J. unfold rot. apply dC_add; apply dC_scale, H. Qed.
Lemma d_lin a x : derivable_pt_lim (fun y => y * a) x a.
Proof.
  assert (E : 1 * a + x * 0 = a) by ring. pose proof (derivable_pt_lim_mult (fun y => y) (fun _ => a) x 1 0 (derivable_pt_lim_id x) (derivable_pt_lim_const a x)) as H. cbn beta in H. rewrite E in H. exact H.
Qed.
Lemma d_cos_lin a x : derivable_pt_lim (fun y => cos (y * a)) x (- sin (x * a) * a).
Proof. apply (derivable_pt_lim_comp (fun y => y * a) cos); [|apply derivable_pt_lim_cos]. apply d_lin. Qed.
Lemma d_sin_lin a x : derivable_pt_lim (fun y => sin (y * a)) x (cos (x * a) * a).
Proof. apply (derivable_pt_lim_comp (fun y => y * a) sin); [|apply derivable_pt_lim_sin]. apply d_lin. Qed.
Lemma dS_rotating F r psi x : (forall I, F (F I) = I) -> odd_under F r -> dS (fun y => rot F (fun J => y * r J) psi) x (gen F r (rot F (fun J => x * r J) psi)).
Proof.
  intros FF O J. unfold rot at 1. eapply dC_ext; [reflexivity| |].
  2: { apply dC_add.
       - apply (dC_mul (fun y => RtoC (cos (y * r J))) (fun _ => psi J) x); [apply dC_real, d_cos_lin|apply dC_const].
       - apply (dC_mul (fun y => RtoC (sin (y * r J))) (fun _ => psi (F J)) x); [apply dC_real, d_sin_lin|apply dC_const]. }
  unfold gen, rot. rewrite (O J), FF. replace (x * - r J) with (- (x * r J)) by ring. rewrite cos_neg, sin_neg. apply C_ext; cbn; ring.
Qed.

(** ---- operators that couple every basis state with one other ---- *)
Definition two_level (A : state -> state) : Prop := exists F r, (forall I, F (F I) = I) /\ odd_under F r /\ forall psi I, A psi I = gen F r psi I.
Lemma two_level_eq A : two_level A -> exists F r, (forall I, F (F I) = I) /\ odd_under F r /\ A = gen F r.
Proof. intros (F & r & H1 & H2 & H3). exists F, r. split; [exact H1|]. split; [exact H2|]. extensionality psi. extensionality I. apply H3. Qed.
Lemma state_eq (a b : state) : a == b -> a = b.
Proof. intros H. extensionality I. apply H. Qed.
Definition rexp (A : state -> state) (x : R) (psi phi : state) : Prop := is_exp (RtoC x) A psi phi.
Lemma rexp_exists A x psi : two_level A -> exists phi, is_exp (RtoC x) A psi phi.
Proof. intros H. destruct (two_level_eq A H) as (F & r & H1 & H2 & ->). eexists. apply gen_exp; assumption. Qed.
Lemma rexp_back A x psi phi chi : two_level A -> is_exp (RtoC x) A psi phi -> is_exp (RtoC (- x)) A phi chi -> chi = psi.
Proof.
  intros H E1 E2. destruct (two_level_eq A H) as (F & r & H1 & H2 & ->). apply (gen_exp_unique F H1 r _ _ _ H2) in E1. apply (gen_exp_unique F H1 r _ _ _ H2) in E2. apply state_eq in E1, E2. subst. apply state_eq. intros I.
  rewrite rot_rot; [|exact H1|intros J; rewrite (H2 J); ring]. rewrite (rot_ext F _ (fun _ => 0) psi I) by ring. apply rot_zero.
Qed.
Lemma rexp_forth A x psi phi chi : two_level A -> is_exp (RtoC (- x)) A psi phi -> is_exp (RtoC x) A phi chi -> chi = psi.
Proof. intros H E1 E2. apply (rexp_back A (- x) psi phi chi H E1). now rewrite Ropp_involutive. Qed.

(** the factors of an ansatz: real amplitudes, two-level operators *)
Definition real_factor (x : C * (state -> state)) : Prop := Im (fst x) = 0 /\ two_level (snd x).
Lemma product_map l : Forall real_factor l -> exists V : state -> state, forall psi, exp_product l psi (V psi).
Proof.
  induction 1 as [|[c A] l (H1 & H2) _ (V & IH)]; [exists (fun psi => psi); intros psi I; reflexivity|]. cbn [fst snd] in *. replace c with (RtoC (Re c)) by (apply C_ext; cbn; auto).
  destruct (two_level_eq A H2) as (F & r & F1 & F2 & ->). exists (fun psi => V (rot F (fun J => Re c * r J) psi)). intros psi. cbn [exp_product]. exists (rot F (fun J => Re c * r J) psi). split; [now apply gen_exp|apply IH].
Qed.
Lemma product_exists l : Forall real_factor l -> forall psi, exists phi, exp_product l psi phi.
Proof. intros H psi. destruct (product_map l H) as (V & HV). exists (V psi). apply HV. Qed.
Lemma product_slope l : Forall real_factor l -> forall f x d h w, dS f x d -> (forall y, exp_product l (f y) (h y)) -> exp_product l d w -> dS h x w.
Proof.
  induction 1 as [|[c A] l (H1 & H2) _ IH]; intros f x d h w D Eh Ew; cbn [exp_product] in *.
  - apply state_eq in Ew. subst w. replace h with f; [exact D|]. extensionality y. symmetry. apply state_eq, Eh.
  - cbn [fst snd] in *. assert (Ec : c = RtoC (Re c)) by (apply C_ext; cbn; auto). destruct (two_level_eq A H2) as (F & r & F1 & F2 & ->).
    apply (IH (fun y => rot F (fun J => Re c * r J) (f y)) x (rot F (fun J => Re c * r J) d)).
    + now apply dS_rot.
    + intros y. destruct (Eh y) as (chi & E1 & E2). rewrite Ec in E1. apply (gen_exp_unique F F1 r _ _ _ F2) in E1. apply state_eq in E1. now subst chi.
    + destruct Ew as (chi & E1 & E2). rewrite Ec in E1. apply (gen_exp_unique F F1 r _ _ _ F2) in E1. apply state_eq in E1. now subst chi.
Qed.
(** the derivative of the energy along one exponential of a product *)
Theorem energy_slope n o l1 A l2 psi x0 chi phi w : Forall real_factor l1 -> two_level A -> Forall real_factor l2 -> self_adjoint n (op_act o) ->
  exp_product (l1 ++ [(RtoC x0, A)]) psi chi -> exp_product l2 chi phi -> exp_product l2 (A chi) w ->
  slope n (op_act o) (fun x => l1 ++ (RtoC x, A) :: l2) psi x0 (2 * Re (inner n (op_act o phi) w)).
Proof.
  intros H1 HA H2 HH Echi Ephi Ew. apply AnsatzProofs.exp_product_app in Echi. destruct Echi as (xi & E1 & E2). cbn [exp_product] in E2. destruct E2 as (chi' & E2 & E3). apply state_eq in E3. subst chi'.
  destruct (two_level_eq A HA) as (F & r & F1 & F2 & EA).
  destruct (product_map l2 H2) as (V & HV). set (f := fun x => rot F (fun J => x * r J) xi).
  assert (Y : forall x, exp_product (l1 ++ (RtoC x, A) :: l2) psi (V (f x))).
  { intros x. apply AnsatzProofs.exp_product_app. exists xi. split; [exact E1|]. cbn [exp_product]. exists (f x). split; [rewrite EA; now apply gen_exp|apply HV]. }
  assert (Ec : chi = f x0) by (rewrite EA in E2; apply state_eq; apply (gen_exp_unique F F1 r _ _ _ F2 E2)).
  split; [exists (fun x => energy n (op_act o) (V (f x))); intros x; exists (V (f x)); split; [apply Y|reflexivity]|].
  intros E HE.
  assert (D : dS (fun x => V (f x)) x0 w).
  { apply (product_slope l2 H2 f x0 (A chi)); [|intros y; apply HV|exact Ew]. rewrite EA, Ec. now apply dS_rotating. }
  assert (EV : V (f x0) = phi) by (apply state_eq; apply (exp_product_unique l2 (f x0)); [apply HV|rewrite <- Ec; exact Ephi]).
  pose proof (dC_inner n _ _ x0 _ _ D (dS_op o _ x0 _ D)) as (K & _). cbn beta in K. rewrite EV in K.
  assert (K1 : inner n w (op_act o phi) = Cconj (inner n (op_act o phi) w)) by apply inner_conj.
  rewrite K1, (HH phi w) in K. eapply d_ext; [|replace (2 * Re (inner n (op_act o phi) w)) with (Re (Cconj (inner n (op_act o phi) w) + inner n (op_act o phi) w)%C) by (cbn; ring); exact K].
  intros y. cbn beta. destruct (HE y) as (p & Ep & ->). unfold energy. f_equal. f_equal; [|f_equal]; apply state_eq, (exp_product_unique _ psi _ _ (Y y) Ep).
Qed.
