(** Algebra of the Clifford factors (g + X_q)/sqrt 2. *)
From Coq Require Import Reals String List Arith Lia Bool Lra Permutation Sorted.
From Verif Require Import CBase Result Bits Spec GateModel OpSpec ComputerModel SafeProofs GateProofs LibProofs CircuitModel PauliProofs OperatorModel OperatorProofs PauliIndep
  TaperModel TaperSpec TaperAlg TaperKernel TaperGS TaperAbel TaperPauli TaperSym TaperFind TaperUnit.
Import ListNotations.
Local Open Scope nat_scope.

Record factor (g : list gate) (x : gate) : Prop := { fa_canon : canonical_pauli g; fa_pauli : pauli_gate x; fa_x : glabel x = "X"%string; fa_zb : zb g (gtarget x) = true }.
Lemma u_form g x psi : op_act (uop g x) psi == sscale (RtoC rho) (sadd (circ_act g psi) (gate_act x psi)).
Proof. intros J. unfold op_act, uop. rewrite !Csum_cons, Csum_nil. cbn [fst snd]. fold rho. unfold sscale, sadd. rewrite circ_act_cons. cbn. ring. Qed.
Lemma g_inv g psi : canonical_pauli g -> circ_act g (circ_act g psi) == psi.
Proof. intros H. eapply seq_trans; [apply circ_act_ext, seq_sym, (canonical_circ g psi H)|]. apply circ_wact_inv, H. Qed.
Lemma x_inv x psi : pauli_gate x -> gate_act x (gate_act x psi) == psi.
Proof. intros H. rewrite !(pauli_act x) by exact H. apply pact_invol. Qed.
Lemma g_x_anti g x psi : factor g x -> circ_act g (gate_act x psi) == sscale (- C1)%C (gate_act x (circ_act g psi)).
Proof.
  intros [Hg Hx HL HZ]. pose proof (sign_of_str x g Hx (canonical_str g Hg) psi) as H. rewrite HL in H. rewrite <- zb_anti in H by apply canonical_str, Hg. rewrite HZ in H. exact H.
Qed.
Lemma g_x_comm g x psi : canonical_pauli g -> pauli_gate x -> glabel x = "X"%string -> zb g (gtarget x) = false -> circ_act g (gate_act x psi) == gate_act x (circ_act g psi).
Proof.
  intros Hg Hx HL HZ. pose proof (sign_of_str x g Hx (canonical_str g Hg) psi) as H. rewrite HL in H. rewrite <- zb_anti in H by apply canonical_str, Hg. rewrite HZ in H.
  eapply seq_trans; [exact H|]. apply sscale_1.
Qed.
Lemma rho_half : (RtoC rho * RtoC rho * (C1 + C1))%C = C1.
Proof. apply C_ext; cbn; ring_simplify; [|ring]. replace (rho ^ 2)%R with (rho * rho)%R by ring. rewrite rho_sq. field. Qed.
(** a linear operation given by its value on sums and multiples *)
Definition linear (f : state -> state) : Prop := (forall a b, a == b -> f a == f b) /\ (forall a b, f (sadd a b) == sadd (f a) (f b)) /\ forall c a, f (sscale c a) == sscale c (f a).
Lemma linear_circ g : linear (circ_act g).
Proof. split; [apply circ_act_ext|split; [apply circ_act_add|intros; apply circ_act_scale]]. Qed.
Lemma linear_gate x : linear (gate_act x).
Proof. split; [intros; apply gate_act_ext; assumption|split; [intros; apply gate_act_add|intros; apply gate_act_scale]]. Qed.
Lemma linear_op o : linear (op_act o).
Proof.
  split; [intros; apply op_act_ext; assumption|split].
  - intros a b J. change (op_act o (sadd a b) J = (op_act o a J + op_act o b J)%C). unfold op_act. rewrite <- Csum_add. apply Csum_ext. intros t _. rewrite (circ_act_add (snd t) a b J). unfold sadd. ring.
  - intros c a J. change (op_act o (sscale c a) J = (c * op_act o a J)%C). unfold op_act. rewrite <- Csum_mul_l. apply Csum_ext. intros t _. rewrite (circ_act_scale (snd t) c a J). unfold sscale. ring.
Qed.
Lemma linear_u f g x psi : linear f -> f (op_act (uop g x) psi) == sscale (RtoC rho) (sadd (f (circ_act g psi)) (f (gate_act x psi))).
Proof. intros (HE & HA & HS). eapply seq_trans; [apply HE, u_form|]. eapply seq_trans; [apply HS|]. apply sscale_ext, HA. Qed.
Lemma u_commutes f g x psi : linear f -> (forall psi, f (circ_act g psi) == circ_act g (f psi)) -> (forall psi, f (gate_act x psi) == gate_act x (f psi)) ->
  f (op_act (uop g x) psi) == op_act (uop g x) (f psi).
Proof.
  intros HL Hg Hx. eapply seq_trans; [apply linear_u, HL|]. eapply seq_trans; [|apply seq_sym, u_form]. apply sscale_ext, sadd_ext; [apply Hg|apply Hx].
Qed.
Lemma u_invol g x psi : factor g x -> op_act (uop g x) (op_act (uop g x) psi) == psi.
Proof.
  intros HF. pose proof HF as [Hg Hx _ _]. eapply seq_trans; [apply linear_u, linear_op|].
  eapply seq_trans; [apply sscale_ext, sadd_ext; apply u_form|]. intros J. unfold sscale, sadd.
  rewrite (g_inv g psi Hg J), (x_inv x psi Hx J), (g_x_anti g x psi HF J). unfold sscale.
  transitivity (RtoC rho * RtoC rho * (C1 + C1) * psi J)%C; [ring|]. rewrite rho_half. ring.
Qed.
Lemma u_swap g x psi : factor g x -> op_act (uop g x) (circ_act g psi) == gate_act x (op_act (uop g x) psi).
Proof.
  intros HF. pose proof HF as [Hg Hx _ _]. eapply seq_trans; [apply u_form|]. eapply seq_trans; [|apply seq_sym, linear_u, linear_gate]. apply sscale_ext. intros J. unfold sadd.
  rewrite (g_inv g psi Hg J), (x_inv x psi Hx J). ring.
Qed.

(** ---- the whole family ---- *)
Fixpoint paired (gx : list (list gate * gate)) : Prop :=
  match gx with
  | [] => True
  | p :: r => factor (fst p) (snd p) /\
      (forall p', In p' r -> zb (fst p) (gtarget (snd p')) = false /\ zb (fst p') (gtarget (snd p)) = false /\ Commute (fst p) (fst p')) /\ paired r
  end.
Lemma paired_chain gx : paired gx -> chain gx.
Proof. induction gx as [|p r IH]; [auto|]. intros ([H1 H2 H3 H4] & H5 & H6). cbn [chain]. do 4 (split; [assumption|]). split; [|apply IH, H6]. intros p' Hp'. apply (H5 p' Hp'). Qed.
Lemma paired_in gx p : paired gx -> In p gx -> factor (fst p) (snd p).
Proof. induction gx as [|q r IH]; [intros _ []|]. intros (H1 & _ & H3) [<-|Hp]; [exact H1|apply IH; assumption]. Qed.
Lemma x_x_comm x y psi : pauli_gate x -> pauli_gate y -> glabel x = "X"%string -> glabel y = "X"%string -> gate_act x (gate_act y psi) == gate_act y (gate_act x psi).
Proof.
  intros Hx Hy Lx Ly. rewrite !(pauli_act x), !(pauli_act y) by assumption. rewrite Lx, Ly. destruct (Nat.eq_dec (gtarget x) (gtarget y)) as [E|N]; [rewrite E; apply seq_refl|apply pact_comm, N].
Qed.
Lemma gate_u f gx psi : linear f -> (forall p, In p gx -> forall psi, f (op_act (uop (fst p) (snd p)) psi) == op_act (uop (fst p) (snd p)) (f psi)) ->
  f (compose (ops_of gx) psi) == compose (ops_of gx) (f psi).
Proof.
  intros HL. induction gx as [|p r IH]; intros H; [apply seq_refl|]. cbn [ops_of map compose fold_right].
  eapply seq_trans; [apply H; left; reflexivity|]. apply op_act_ext, IH. intros p' Hp'. apply H. right; exact Hp'.
Qed.
Lemma g_commutes_rest p r psi : paired (p :: r) -> circ_act (fst p) (compose (ops_of r) psi) == compose (ops_of r) (circ_act (fst p) psi).
Proof.
  intros (HF & HR & HP). apply gate_u; [apply linear_circ|]. intros p' Hp' phi. destruct (HR p' Hp') as (H1 & H2 & H3). pose proof (paired_in r p' HP Hp') as [G1 G2 G3 G4]. destruct HF as [F1 F2 F3 F4].
  apply u_commutes; [apply linear_circ|intros; apply H3|]. intros. apply g_x_comm; assumption.
Qed.
Lemma x_commutes_rest p r psi : paired (p :: r) -> gate_act (snd p) (compose (ops_of r) psi) == compose (ops_of r) (gate_act (snd p) psi).
Proof.
  intros (HF & HR & HP). apply gate_u; [apply linear_gate|]. intros p' Hp' phi. destruct (HR p' Hp') as (H1 & H2 & H3). pose proof (paired_in r p' HP Hp') as [G1 G2 G3 G4]. destruct HF as [F1 F2 F3 F4].
  apply u_commutes; [apply linear_gate| |]; intros; [apply seq_sym, g_x_comm; assumption|apply x_x_comm; assumption].
Qed.
Lemma linear_compose us : linear (compose us).
Proof.
  induction us as [|u us (IE & IA & IS)]; cbn [compose fold_right].
  - split; [auto|]. split; intros; apply seq_refl.
  - destruct (linear_op u) as (E & A & S). split; [intros a b H; apply E, IE, H|]. split.
    + intros a b. eapply seq_trans; [apply E, IA|apply A].
    + intros c a. eapply seq_trans; [apply E, IS|apply S].
Qed.
Lemma u_commutes_rest p r psi : paired (p :: r) -> compose (ops_of r) (op_act (uop (fst p) (snd p)) psi) == op_act (uop (fst p) (snd p)) (compose (ops_of r) psi).
Proof.
  intros HP. apply u_commutes; [apply linear_compose| |]; intros phi; apply seq_sym; [apply g_commutes_rest, HP|apply x_commutes_rest, HP].
Qed.
Lemma compose_invol gx psi : paired gx -> compose (ops_of gx) (compose (ops_of gx) psi) == psi.
Proof.
  revert psi. induction gx as [|p r IH]; intros psi HP; [apply seq_refl|]. cbn [ops_of map compose fold_right]. fold (ops_of r).
  eapply seq_trans; [apply op_act_ext, (u_commutes_rest p r _ HP)|]. destruct HP as (HF & _ & HP). eapply seq_trans; [apply u_invol, HF|]. apply IH, HP.
Qed.
Lemma compose_swap gx p psi : paired gx -> In p gx -> compose (ops_of gx) (circ_act (fst p) psi) == gate_act (snd p) (compose (ops_of gx) psi).
Proof.
  induction gx as [|q r IH]; intros HP Hp; [destruct Hp|]. cbn [ops_of map compose fold_right]. fold (ops_of r). destruct Hp as [<-|Hp].
  - eapply seq_trans; [apply op_act_ext, seq_sym, (g_commutes_rest q r psi HP)|]. apply u_swap. apply HP.
  - destruct HP as (HF & HR & HP). destruct (HR p Hp) as (H1 & H2 & H3). pose proof (paired_in r p HP Hp) as [G1 G2 G3 G4]. destruct HF as [F1 F2 F3 F4].
    eapply seq_trans; [apply op_act_ext, (IH HP Hp)|]. apply seq_sym. apply u_commutes; [apply linear_gate| |]; intros phi; [apply seq_sym, g_x_comm; assumption|apply x_x_comm; assumption].
Qed.
Lemma compose_swap' gx p psi : paired gx -> In p gx -> compose (ops_of gx) (gate_act (snd p) psi) == circ_act (fst p) (compose (ops_of gx) psi).
Proof.
  intros HP Hp. eapply seq_trans; [apply compose_ext, (proj1 (linear_gate (snd p))), seq_sym, (compose_invol gx psi HP)|].
  eapply seq_trans; [apply compose_ext, seq_sym, (compose_swap gx p _ HP Hp)|]. apply compose_invol, HP.
Qed.

(** ---- it preserves inner products ---- *)
Lemma inner_u n r a b a' b' : inner n (sscale (RtoC r) (sadd a b)) (sscale (RtoC r) (sadd a' b')) =
  (RtoC r * RtoC r * (inner n a a' + inner n b b' + inner n a b' + inner n b a'))%C.
Proof.
  unfold inner. rewrite <- !Csum_add, <- Csum_mul_l. apply Csum_ext. intros J _. unfold sscale, sadd.
  replace (Cconj (RtoC r * (a J + b J))%C) with (RtoC r * (Cconj (a J) + Cconj (b J)))%C by (apply C_ext; cbn; ring). ring.
Qed.
Lemma inner_scale_l n c a b : inner n (sscale c a) b = (Cconj c * inner n a b)%C.
Proof. unfold inner. rewrite <- Csum_mul_l. apply Csum_ext. intros J _. unfold sscale. replace (Cconj (c * a J)%C) with (Cconj c * Cconj (a J))%C by (apply C_ext; cbn; ring). ring. Qed.
Lemma u_inner n g x a b : factor g x -> (forall h, In h (x :: g) -> gtarget h < n) -> inner n (op_act (uop g x) a) (op_act (uop g x) b) = inner n a b.
Proof.
  intros HF HR. pose proof HF as [Hg Hx _ _].
  assert (Lg : Forall library_gate g) by (eapply Forall_impl; [|apply Hg]; intros h; apply pauli_plain). 
  assert (IR : forall h, pauli_gate h -> gtarget h < n -> in_range n h) by (intros h Hh Ht; split; [exact Ht|rewrite <- (pauli_gate_1q h Hh); exact Ht]).
  assert (Rg : Forall (in_range n) g). { apply Forall_forall. intros h Hh. apply IR; [|apply HR; right; exact Hh]. pose proof (proj1 Hg) as HH. rewrite Forall_forall in HH. apply HH, Hh. }
  assert (Rx : in_range n x) by (apply IR; [exact Hx|apply HR; left; reflexivity]).
  assert (PG : forall a b, inner n (circ_act g a) (circ_act g b) = inner n a b) by (intros; apply circ_preserves_inner; assumption).
  assert (PX : forall a b, inner n (gate_act x a) (gate_act x b) = inner n a b) by (intros; apply gate_preserves_inner; [apply pauli_plain, Hx|exact Rx]).
  rewrite (inner_ext n _ _ _ _ (u_form g x a) (u_form g x b)), inner_u, PG, PX.
  assert (E1 : inner n (circ_act g a) (gate_act x b) = inner n (gate_act x (circ_act g a)) b).
  { rewrite <- (PX (circ_act g a) (gate_act x b)). apply inner_ext; [apply seq_refl|apply x_inv, Hx]. }
  assert (E2 : inner n (gate_act x a) (circ_act g b) = (- inner n (gate_act x (circ_act g a)) b)%C).
  { rewrite <- (PG (gate_act x a) (circ_act g b)). rewrite (inner_ext n _ _ _ _ (g_x_anti g x a HF) (g_inv g b Hg)). rewrite inner_scale_l. replace (Cconj (- C1)%C) with (- C1)%C by (apply C_ext; cbn; ring). ring. }
  rewrite E1, E2. transitivity (RtoC rho * RtoC rho * (C1 + C1) * inner n a b)%C; [ring|]. rewrite rho_half. ring.
Qed.
Lemma compose_inner n gx a b : paired gx -> (forall p h, In p gx -> In h (snd p :: fst p) -> gtarget h < n) -> inner n (compose (ops_of gx) a) (compose (ops_of gx) b) = inner n a b.
Proof.
  induction gx as [|p r IH]; intros HP HR; [reflexivity|]. cbn [ops_of map compose fold_right]. fold (ops_of r). destruct HP as (HF & _ & HP).
  rewrite u_inner; [|exact HF|intros h Hh; apply (HR p h); [left; reflexivity|exact Hh]]. apply IH; [exact HP|]. intros q h Hq Hh. apply (HR q h); [right; exact Hq|exact Hh].
Qed.
