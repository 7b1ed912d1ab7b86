(** The assembled Hamiltonian is real and Hermitian. *)
From Coq Require Import Reals String List Arith Bool Lia Lra Permutation.
From Verif Require Import CBase Result Bits Spec OpSpec SQSpec LibProofs SafeProofs GateModel OperatorModel SQModel SQProofs FermiProofs SpinOps RealOps FermiIndep FermiHerm PropSQ MolModel MolSpec MolProofs MolFrozen MolCore MolEnergy.
Import ListNotations.
Local Open Scope C_scope.

Lemma real_terms o : Forall (fun t => Im (fcoef t) = 0%R) o -> real_map (fermi_act o).
Proof.
  intros H. apply conj_real. intros psi I. rewrite !fermi_word. unfold conj_terms. rewrite Csum_map. apply Csum_ext. intros t Ht. rewrite Forall_forall in H. specialize (H t Ht). unfold fcoef at 1. cbn [fst snd]. f_equal. apply C_ext; cbn; lra.
Qed.
Lemma hop_adj n p q a b : (p < n)%nat -> (q < n)%nat -> inner n a (hop p q b) = Cconj (inner n b (hop q p a)).
Proof. intros Hp Hq. rewrite <- inner_conj. unfold hop. rewrite inner_create, inner_annihilate by assumption. reflexivity. Qed.
Lemma scatter_adj n p r s q a b : (p < n)%nat -> (r < n)%nat -> (s < n)%nat -> (q < n)%nat -> inner n a (scatter p r s q b) = Cconj (inner n b (scatter q s r p a)).
Proof. intros Hp Hr Hs Hq. rewrite <- inner_conj. unfold scatter. rewrite !inner_create, !inner_annihilate by assumption. reflexivity. Qed.
Lemma electronic_hermitian m h g : RealOrbitals h g -> forall N a b, (2 * m <= N)%nat -> inner N a (electronic m h g b) = inner N (electronic m h g a) b.
Proof.
  intros (Sh & S1 & S2 & S3) N a b L. rewrite (inner_conj N (electronic m h g a) b), !electronic_inner.
  assert (B : forall p s, In p (seq 0 m) -> In s bits2 -> (so p s < N)%nat) by (intros p s Hp Hs; apply in_seq in Hp; apply bits2_lt in Hs; unfold so; lia).
  assert (CA : forall x y, Cconj (x + y) = Cconj x + Cconj y) by (intros; apply C_ext; cbn; ring). rewrite CA. f_equal.
  - rewrite Csum_conj. apply Csum_ext. intros s Hs. rewrite Csum_conj, Csum_swap. apply Csum_ext. intros q Hq. rewrite Csum_conj. apply Csum_ext. intros p Hp. rewrite (hop_adj N (so p s) (so q s)) by auto. rewrite (Sh q p). generalize (inner N b (hop (so q s) (so p s) a)). intros x. apply C_ext; cbn; ring.
  - set (T := fun p q r s => Csum (fun x => Csum (fun y => RtoC (g p q r s / 2) * inner N a (scatter (so p x) (so r y) (so s y) (so q x) b)) bits2) bits2).
    set (T' := fun p q r s => Cconj (Csum (fun x => Csum (fun y => RtoC (g p q r s / 2) * inner N b (scatter (so p x) (so r y) (so s y) (so q x) a)) bits2) bits2)).
    assert (E : forall p q r s, In p (seq 0 m) -> In q (seq 0 m) -> In r (seq 0 m) -> In s (seq 0 m) -> T p q r s = T' q p s r).
    { intros p q r s Hp Hq Hr Hs. unfold T, T'. rewrite Csum_conj. apply Csum_ext. intros x Hx. rewrite Csum_conj. apply Csum_ext. intros y Hy. rewrite (scatter_adj N) by auto. rewrite (S1 p q r s), (S2 q p r s). generalize (inner N b (scatter (so q x) (so s y) (so r y) (so p x) a)). intros z. apply C_ext; cbn; ring. }
    transitivity (Csum (fun q => Csum (fun s => Csum (fun r => Csum (fun p => T' q p s r) (seq 0 m)) (seq 0 m)) (seq 0 m)) (seq 0 m)).
    + transitivity (Csum (fun p => Csum (fun r => Csum (fun s => Csum (fun q => T' q p s r) (seq 0 m)) (seq 0 m)) (seq 0 m)) (seq 0 m)).
      * apply Csum_ext. intros p Hp. apply Csum_ext. intros r Hr. apply Csum_ext. intros s Hs. apply Csum_ext. intros q Hq. apply E; assumption.
      * (* p r s q -> q s r p *)
        set (l := seq 0 m). rewrite (Csum_ext _ (fun p => Csum (fun r => Csum (fun q => Csum (fun s => T' q p s r) l) l) l)) by (intros p _; apply Csum_ext; intros r _; apply Csum_swap).
        rewrite (Csum_ext _ (fun p => Csum (fun q => Csum (fun r => Csum (fun s => T' q p s r) l) l) l)) by (intros p _; apply Csum_swap). rewrite Csum_swap. apply Csum_ext. intros q _.
        rewrite (Csum_ext _ (fun p => Csum (fun s => Csum (fun r => T' q p s r) l) l)) by (intros p _; apply Csum_swap). rewrite Csum_swap. apply Csum_ext. intros s _. apply Csum_swap.
    + rewrite Csum_conj. apply Csum_ext. intros q _. rewrite Csum_conj. apply Csum_ext. intros s _. rewrite Csum_conj. apply Csum_ext. intros r _. rewrite Csum_conj. reflexivity.
Qed.
Lemma dressed_sym c lo hi h g : RealOrbitals h g -> forall p q, dressed c lo hi h g p q = dressed c lo hi h g q p.
Proof.
  intros (Sh & S1 & S2 & S3) p q. unfold dressed. rewrite (Sh p q). replace ((0 <? c) && ((lo <=? q) && (q <? hi)) && ((lo <=? p) && (p <? hi)))%bool with ((0 <? c) && ((lo <=? p) && (p <? hi)) && ((lo <=? q) && (q <? hi)))%bool by (destruct (0 <? c)%nat, (lo <=? p)%nat, (p <? hi)%nat, (lo <=? q)%nat, (q <? hi)%nat; reflexivity).
  destruct (_ && _)%bool; [|reflexivity]. generalize (h q p). induction (seq 0 c) as [|i l IH]; intros x; [reflexivity|]. cbn [fold_left]. rewrite IH. f_equal. rewrite (S1 p q i i), (S3 p i i q), (S1 i q p i), (S2 q i p i). reflexivity.
Qed.
Theorem mol_hermitian e nmo c v h g : RealOrbitals h g -> hermitian_map (2 * (nmo - v - c)) (fermi_act (mol_sq e nmo c v h g)).
Proof.
  intros RO N a b L. assert (S2 : forall p q r s, g p q r s = g p q s r) by apply RO. rewrite (inner_ext N a a _ _ (seq_refl a) (mol_sq_act e nmo c v h g b S2)), (inner_ext N _ _ b b (mol_sq_act e nmo c v h g a S2) (seq_refl b)).
  rewrite (inner_conj N (sadd _ _) b), !inner_add_r, !inner_scale_r. assert (RO' : RealOrbitals (fun p q => dressed c c (nmo - v) h g (p + c)%nat (q + c)%nat) (fun p q r s => g (p + c)%nat (q + c)%nat (r + c)%nat (s + c)%nat)) by (split; [intros p q; apply dressed_sym, RO|]; destruct RO as (_ & A & B & D); repeat split; intros; [apply A|apply B|apply D]).
  rewrite (electronic_hermitian (nmo - v - c) _ _ RO' N a b L).
  rewrite (inner_conj N (electronic _ _ _ a) b), (inner_conj N a b). generalize (inner N b a) (inner N b (electronic (nmo - v - c) (fun p q => dressed c c (nmo - v) h g (p + c)%nat (q + c)%nat) (fun p q r s => g (p + c)%nat (q + c)%nat (r + c)%nat (s + c)%nat) a)). intros x y. apply C_ext; cbn; ring.
Qed.
Theorem mol_terms e nmo c v h g : let o := mol_sq e nmo c v h g in Forall (fun t => PlainTerm t /\ conserving t /\ within (2 * (nmo - v - c)) t /\ Im (fcoef t) = 0%R) o.
Proof.
  cbv zeta. rewrite mol_sq_eq. set (na := (2 * (nmo - v - c))%nat).
  assert (ND2 : forall p q : nat, p <> q -> NoDup [p; q]) by (intros p q N; repeat constructor; cbn; intuition).
  assert (P : forall x p q r s, (p < na)%nat -> (q < na)%nat -> (r < na)%nat -> (s < na)%nat -> Forall (fun t => PlainTerm t /\ conserving t /\ within na t /\ Im (fcoef t) = 0%R) (pair_terms x p q r s)).
  { intros x p q r s Hp Hq Hr Hs. unfold pair_terms, add_pair, sq_add_term. destruct (Nat.eqb_spec p q), (Nat.eqb_spec r s); cbn [negb andb app]; try (now constructor). constructor; [|constructor]. split; [repeat split; unfold fcre, fann; cbn [fst snd length]; [now apply ND2|now apply ND2|lia]|]. split; [reflexivity|]. split; [split; repeat constructor; assumption|reflexivity]. }
  assert (O : forall x p q, (p < na)%nat -> (q < na)%nat -> PlainTerm ((RtoC x, [p]), [q]) /\ conserving ((RtoC x, [p]), [q]) /\ within na ((RtoC x, [p]), [q]) /\ Im (fcoef ((RtoC x, [p]), [q])) = 0%R).
  { intros x p q Hp Hq. split; [repeat split; unfold fcre, fann; cbn [fst snd length]; [repeat constructor; cbn; tauto|repeat constructor; cbn; tauto|lia]|]. split; [reflexivity|]. split; [split; repeat constructor; assumption|reflexivity]. }
  assert (FM : forall (A : Type) (F : A -> list fterm) l (Q : fterm -> Prop), (forall x, In x l -> Forall Q (F x)) -> Forall Q (flat_map F l)). { intros A F l Q H. apply Forall_forall. intros t Ht. apply in_flat_map in Ht. destruct Ht as (x & Hx & Ht). specialize (H x Hx). rewrite Forall_forall in H. now apply H. }
  assert (LB : forall i, In i (seq c (nmo - v - c)) -> ((i - c) * 2 + 1 < na)%nat) by (intros i Hi; apply in_seq in Hi; unfold na; lia).
  constructor.
  - split; [repeat split; unfold fcre, fann; cbn; try constructor; lia|]. split; [reflexivity|]. split; [split; constructor|reflexivity].
  - apply FM. intros i Hi. apply LB in Hi. apply FM. intros j Hj. apply LB in Hj. apply Forall_app. split; [apply Forall_cons; [apply O; lia|apply Forall_cons; [apply O; lia|apply Forall_nil]]|]. apply FM. intros k Hk. apply LB in Hk. apply FM. intros l Hl. apply LB in Hl. unfold four. repeat (apply Forall_app; split); apply P; lia.
Qed.
