(** Eigenvalues of the projected problem are Rayleigh quotients. *)
From Coq Require Import Reals String List Arith Bool Lia Lra.
From Verif Require Import CBase Result Bits Spec OpSpec GateModel FermiProofs EigModel EigProofs GradSpec SymmSums PropEig QkProofs.
Import ListNotations.
Local Open Scope nat_scope.

(** the combination of the states Psi with coefficients c *)
Definition combination (N : nat) (c : nat -> C) (Psi : nat -> state) : state := fun I => Csum (fun m => (c m * Psi m I)%C) (seq 0 N).
Lemma inner_comb_r n a N c Psi : inner n a (combination N c Psi) = Csum (fun m => (c m * inner n a (Psi m))%C) (seq 0 N).
Proof.
  unfold inner, combination. transitivity (Csum (fun I => Csum (fun m => (c m * (Cconj (a I) * Psi m I))%C) (seq 0 N)) (seq 0 (2 ^ n))).
  - apply Csum_ext. intros I _. rewrite <- Csum_mul_l. apply Csum_ext. intros; ring.
  - rewrite Csum_swap. apply Csum_ext. intros m _. apply Csum_mul_l.
Qed.
Lemma inner_comb_l n a N c Psi : inner n (combination N c Psi) a = Csum (fun m => (Cconj (c m) * inner n (Psi m) a)%C) (seq 0 N).
Proof. rewrite inner_conj, inner_comb_r, Csum_conj. apply Csum_ext. intros m _. rewrite Cconj_mul, <- inner_conj. reflexivity. Qed.
Definition quad (N : nat) (c : nat -> C) (A : mat) : C := Csum (fun m => (Cconj (c m) * Csum (fun l => A m l * c l) (seq 0 N))%C) (seq 0 N).
Lemma quad_S n N c Psi S : (forall a b, a < N -> b < N -> S a b = inner n (Psi a) (Psi b)) -> inner n (combination N c Psi) (combination N c Psi) = quad N c S.
Proof.
  intros H. rewrite inner_comb_l. apply Csum_ext. intros m Hm. apply in_seq in Hm. f_equal. rewrite inner_comb_r. apply Csum_ext. intros l Hl. apply in_seq in Hl. rewrite H by lia. ring.
Qed.
Lemma quad_H n N c Psi Hop H : self_adjoint n Hop -> (forall a b, a < N -> b < N -> H a b = inner n (Psi a) (Hop (Psi b))) -> inner n (combination N c Psi) (Hop (combination N c Psi)) = quad N c H.
Proof.
  intros SA E. rewrite inner_comb_l. apply Csum_ext. intros m Hm. apply in_seq in Hm. f_equal. rewrite SA, inner_comb_r. apply Csum_ext. intros l Hl. apply in_seq in Hl. rewrite E by lia. rewrite SA. ring.
Qed.
Lemma quad_mdot N D A j : quad N (fun i => D i j) A = mdot N (mdot N (madj D) A) D j j.
Proof. rewrite mdot_assoc. reflexivity. Qed.
Lemma sandwich n k X C' A i j : mdot n (mdot n (madj (mdot k X C')) A) (mdot k X C') i j = mdot k (madj C') (mdot k (mdot n (mdot n (madj X) A) X) C') i j.
Proof.
  rewrite <- mdot_assoc. rewrite <- mdot_assoc. apply mdot_ext_l. intros l Hl. rewrite mdot_assoc. rewrite (mdot_ext_l n _ (mdot k (madj C') (madj X))).
  - rewrite mdot_assoc. apply mdot_ext_r. intros a Ha. symmetry. apply mdot_assoc.
  - intros a Ha. unfold madj, mdot. rewrite Csum_conj. apply Csum_ext. intros b _. rewrite Cconj_mul. ring.
Qed.
Lemma norm_sum (v : nat -> C) l : exists x : R, Csum (fun i => (Cconj (v i) * v i)%C) l = RtoC x /\ (0 <= x)%R /\ ((exists i, In i l /\ v i <> C0) -> (0 < x)%R).
Proof.
  induction l as [|a l (x & E & P & Q)]; [exists 0%R; split; [reflexivity|]; split; [lra|intros (i & [] & _)]|].
  exists (Re (v a) * Re (v a) + Im (v a) * Im (v a) + x)%R. rewrite Csum_cons, E. split; [apply C_ext; cbn; ring|]. assert (0 <= Re (v a) * Re (v a))%R by apply Rle_0_sqr. assert (0 <= Im (v a) * Im (v a))%R by apply Rle_0_sqr. split; [lra|].
  intros (i & [<-|Hi] & Hn); [|assert (0 < x)%R by (apply Q; eauto); lra].
  destruct (Req_dec (Re (v a)) 0) as [Z1|Z1]; [destruct (Req_dec (Im (v a)) 0) as [Z2|Z2]|].
  - exfalso. apply Hn. apply C_ext; assumption.
  - assert (0 < Im (v a) * Im (v a))%R by now apply Rsqr_pos_lt. lra.
  - assert (0 < Re (v a) * Re (v a))%R by now apply Rsqr_pos_lt. lra.
Qed.
(** the eigenvectors returned by eig are not zero *)
Definition NonzeroVectors (eig : eig_oracle) (k : nat) : Prop := forall A j, j < k -> exists i, i < k /\ snd (eig k A) i j <> C0.
Lemma rayleigh eig n S H k e' D' : GoodOverlap eig n S -> KeptFirst eig n S k -> EigCorrect eig k -> NonzeroVectors eig k ->
  canonical_geig_solve eig n S H true = Ok (e', D') -> length e' = k /\ forall e, In e e' -> exists c x, quad n c S = RtoC x /\ (0 < x)%R /\ quad n c H = (e * RtoC x)%C.
Proof.
  intros (HS & ES & OC) (HK & PK) EC NZ E. pose proof (solve_eq eig n S H ES OC HS k HK PK false) as EF. pose proof (C48_sorted_energies _ _ _ _ _ _ EF) as (e1 & D1 & E1 & HP & _). rewrite E1 in E. injection E as -> ->.
  set (X := X_prime (snd (eig n S)) (map Re (firstn k (fst (eig n S))))) in *. set (A := H_prime n X H) in *. destruct (EC A) as [LA CA]. split; [rewrite (Permutation.Permutation_length HP); exact LA|].
  intros e He. apply (Permutation.Permutation_in _ HP) in He. apply (In_nth _ _ C0) in He. destruct He as (j & Hj & <-). rewrite LA in Hj.
  set (V := snd (eig k A)) in *. destruct (norm_sum (fun i => V i j) (seq 0 k)) as (x & Ex & _ & Px). exists (fun i => mdot k X V i j), x.
  assert (EV : mdot k (madj V) V j j = RtoC x) by (rewrite <- Ex; reflexivity). split; [|split].
  - rewrite (quad_mdot n (mdot k X V) S j), sandwich, <- EV. apply mdot_ext_r. intros l Hl. rewrite (mdot_ext_l k _ delta); [apply mdot_delta_l, Hl|]. intros a Ha. exact (X_orthonormal eig n S ES OC HS k HK PK l a Hl Ha).
  - apply Px. destruct (NZ A j Hj) as (i & Hi & Hn). exists i. split; [apply in_seq; lia|exact Hn].
  - rewrite (quad_mdot n (mdot k X V) H j), sandwich, <- EV. change (mdot n (mdot n (madj X) H) X) with A. rewrite <- mdot_scal_r. apply mdot_ext_r. intros l Hl. exact (CA l j Hl Hj).
Qed.
