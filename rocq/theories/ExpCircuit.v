(** The circuits built by exponentiate_pauli_string. *)
From Coq Require Import Reals String List Arith Lia Bool Lra.
From Verif Require Import CBase Result Bits Spec GateModel ComputerModel SafeProofs GateProofs LibProofs InteractProofs CircuitModel PauliProofs GateEval ExpSpec PyModel ThreeQubit ExpProofs.
Import ListNotations.
Local Open Scope C_scope.

Definition gI (t : nat) : gate := mkGate "I" t t m_I None.
Definition word_gate (g : gate) : Prop := pauli_gate g \/ exists t, g = gI t.
Definition not_I (g : gate) : bool := negb (String.eqb (glabel g) "I").
Definition sup (gs : list gate) : list gate := filter not_I gs.

Lemma gI_act t psi : gate_act (gI t) psi == psi.
Proof. unfold gI. rewrite act_1. intros I. unfold act1, m_I, mk44. destruct (bit I t) eqn:E; cbn [b2n nth]; rewrite ?(upd_id' I t _ E); ring. Qed.
Lemma pauli_not_I g : pauli_gate g -> not_I g = true.
Proof. intros H. unfold not_I. destruct (pauli_label_cases _ (proj1 H)) as [-> | [-> | ->]]; reflexivity. Qed.
Lemma sup_act gs : Forall word_gate gs -> forall psi, circ_act gs psi == circ_act (sup gs) psi.
Proof.
  induction gs as [|g gs IH]; intros H psi; [intros I; reflexivity|]. inversion H as [|? ? Hg Hr]; subst. unfold sup; cbn [filter].
  destruct Hg as [Hg|[t ->]].
  - rewrite (pauli_not_I g Hg), !circ_act_cons. apply IH, Hr.
  - cbn [not_I gI glabel String.eqb Ascii.eqb Bool.eqb negb]. rewrite circ_act_cons. eapply seq_trans; [apply circ_act_ext, gI_act|apply IH, Hr].
Qed.
Lemma sup_pauli gs : Forall word_gate gs -> Forall pauli_gate (sup gs).
Proof.
  induction 1 as [|g gs [Hg|[t ->]] _ IH]; [constructor| |exact IH]. unfold sup; cbn [filter]. rewrite (pauli_not_I g Hg). constructor; assumption.
Qed.

(** ---- the gates collected by the loop ---- *)
Definition gHd (t : nat) : gate := mkGate "H" t t m_H None.
Definition gRx2 (t : nat) : gate := let p := normalize_angle (PI / 2) (4 * PI) in mkGate "Rx" t t (m_Rx p) (Some (p, true)).
Definition gcX (t c : nat) : gate := mkGate "cX" t c m_cX None.
Definition basis_change (g : gate) : list gate :=
  if String.eqb (glabel g) "X" then [gHd (gtarget g)] else if String.eqb (glabel g) "Y" then [gRx2 (gtarget g)] else [].
Fixpoint ladder (prev : option nat) (ts : list nat) : list gate :=
  match ts with
  | [] => []
  | t :: r => (match prev with Some p => [gcX t p] | None => [] end) ++ ladder (Some t) r
  end.
Definition last_opt (d : option nat) (ts : list nat) : option nat := match ts with [] => d | _ => Some (last ts 0%nat) end.
Lemma last_opt_cons d t r : last_opt (Some t) r = last_opt d (t :: r).
Proof. unfold last_opt. destruct r as [|u r]; [reflexivity|]. cbn [last]. reflexivity. Qed.
Fixpoint chain_ok (prev : option nat) (ts : list nat) : Prop :=
  match ts with [] => True | t :: r => (match prev with Some p => t <> p | None => True end) /\ chain_ok (Some t) r end.
Lemma exp_loop gs : Forall word_gate gs -> forall tz cx prev mx, chain_ok prev (map gtarget (sup gs)) ->
  foreach gs exp_step (mkAcc tz cx prev mx) =
  Ok (mkAcc (tz ++ flat_map basis_change (sup gs)) (cx ++ ladder prev (map gtarget (sup gs))) (last_opt prev (map gtarget (sup gs))) (last_opt mx (map gtarget (sup gs)))).
Proof.
  induction gs as [|g gs IH]; intros H tz cx prev mx HC; [cbn; rewrite !app_nil_r; reflexivity|]. inversion H as [|? ? Hg Hr]; subst. cbn [foreach].
  destruct Hg as [Hg|[t ->]].
  - assert (ES : sup (g :: gs) = g :: sup gs) by (unfold sup; cbn [filter]; rewrite (pauli_not_I g Hg); reflexivity). rewrite ES in *. cbn [map] in *. cbn [chain_ok] in HC. destruct HC as [HC1 HC2].
    cbn [flat_map ladder]. rewrite <- (last_opt_cons prev), <- (last_opt_cons mx).
    pose proof (pauli_gate_1q g Hg) as EQ.
    assert (EX : exp_step g (mkAcc tz cx prev mx) = Ok (mkAcc (tz ++ basis_change g) (cx ++ match prev with Some p => [gcX (gtarget g) p] | None => [] end) (Some (gtarget g)) (Some (gtarget g)))).
    { unfold exp_step. cbn [to_z cX_circ prev_target max_target]. rewrite <- EQ. unfold basis_change.
      assert (ET : match prev with Some p => do x <- py_gate2 "cX" (gtarget g) p; Ok (cx ++ [x])%list | None => Ok cx end = Ok (cx ++ match prev with Some p => [gcX (gtarget g) p] | None => [] end)%list).
      { destruct prev as [p|]; [|rewrite app_nil_r; reflexivity]. rewrite pycX by exact HC1. reflexivity. }
      destruct (pauli_label_cases _ (proj1 Hg)) as [E | [E | E]]; rewrite E; cbn [String.eqb Ascii.eqb Bool.eqb].
      - rewrite pyH. cbn [bind]. rewrite ET. reflexivity.
      - unfold py_gate3, make_gate. rewrite Nat.eqb_refl. cbn [String.eqb Ascii.eqb Bool.eqb bind]. rewrite ET. reflexivity.
      - rewrite ET. cbn [bind]. rewrite app_nil_r. reflexivity. }
    rewrite EX. cbn [bind]. rewrite IH by assumption. rewrite <- !app_assoc. reflexivity.
  - change (exp_step (gI t) (mkAcc tz cx prev mx)) with (Ok (mkAcc tz cx prev mx)). cbn [bind]. rewrite IH; [reflexivity|assumption|exact HC].
Qed.

(** ---- the basis change turns every letter into Z ---- *)
Lemma act1_prod m m' n n' t psi : meq 2 (mmul 2 m m') (mmul 2 n n') -> act1 m t (act1 m' t psi) == act1 n t (act1 n' t psi).
Proof.
  intros H. eapply seq_trans; [apply act1_mmul|]. eapply seq_trans; [apply act1_meq, H|]. apply seq_sym, act1_mmul.
Qed.
Lemma HX_ZH : meq 2 (mmul 2 m_H m_X) (mmul 2 m_Z m_H).
Proof. intros i j Hi Hj. revert i Hi j Hj. refine (lt2_cases _ _ _); refine (lt2_cases _ _ _); unfold mmul; cbn [seq]; rewrite !Csum_cons, !Csum_nil; unfold m_H, m_X, m_Z, mk44; cbn [nth]; ring. Qed.
Lemma RxY_ZRx : meq 2 (mmul 2 (m_Rx (PI / 2)) m_Y) (mmul 2 m_Z (m_Rx (PI / 2))).
Proof.
  assert (E : (0.5 * (PI / 2) = PI / 4)%R) by lra.
  intros i j Hi Hj. revert i Hi j Hj. refine (lt2_cases _ _ _); refine (lt2_cases _ _ _); unfold mmul; cbn [seq]; rewrite !Csum_cons, !Csum_nil; unfold m_Rx, m_Y, m_Z, mk44; cbn [nth]; rewrite E, cos_PI4, sin_PI4; csolve.
Qed.
Definition zact (t : nat) : state -> state := act1 m_Z t.
Lemma change_act g psi : pauli_gate g -> circ_act (basis_change g) (gate_act g psi) == zact (gtarget g) (circ_act (basis_change g) psi).
Proof.
  intros H. rewrite (pauli_act g _ H). unfold basis_change, zact. destruct (pauli_label_cases _ (proj1 H)) as [E | [E | E]]; rewrite E; cbn [String.eqb Ascii.eqb Bool.eqb]; unfold circ_act; cbn [fold_left].
  - unfold gHd. rewrite !act_1. change (pact "X" (gtarget g) psi) with (act1 m_X (gtarget g) psi). apply act1_prod, HX_ZH.
  - unfold gRx2. cbv zeta. rewrite !act_1, m_Rx_norm. change (pact "Y" (gtarget g) psi) with (act1 m_Y (gtarget g) psi). apply act1_prod, RxY_ZRx.
  - change (pact "Z" (gtarget g) psi) with (act1 m_Z (gtarget g) psi). intros I; reflexivity.
Qed.

(** ---- operations on different qubits commute ---- *)
Definition off (t : nat) (g : gate) : Prop := t <> gtarget g /\ t <> gcontrol g.
Lemma act1_gate_comm m t g psi : off t g -> act1 m t (gate_act g psi) == gate_act g (act1 m t psi).
Proof.
  intros [H1 H2]. unfold gate_act. destruct (Nat.eqb_spec (gtarget g) (gcontrol g)) as [E|E].
  - apply act1_comm_diff, H1.
  - apply disjoint_1_2; assumption.
Qed.
Lemma act1_circ_comm m t gs : Forall (off t) gs -> forall psi, act1 m t (circ_act gs psi) == circ_act gs (act1 m t psi).
Proof.
  induction 1 as [|g gs Hg _ IH]; intros psi; [intros I; reflexivity|]. rewrite !circ_act_cons. eapply seq_trans; [apply IH|]. apply circ_act_ext, act1_gate_comm, Hg.
Qed.
Definition zs (ts : list nat) (psi : state) : state := fold_left (fun s t => zact t s) ts psi.
Lemma zs_cons t ts psi : zs (t :: ts) psi = zs ts (zact t psi).
Proof. reflexivity. Qed.
Lemma zs_ext ts : forall a b, a == b -> zs ts a == zs ts b.
Proof. induction ts as [|t ts IH]; intros a b H; [exact H|]. rewrite !zs_cons. apply IH, act1_ext, H. Qed.
Lemma zs_gate ts g psi : (forall t, In t ts -> off t g) -> gate_act g (zs ts psi) == zs ts (gate_act g psi).
Proof.
  revert psi. induction ts as [|t ts IH]; intros psi H; [intros I; reflexivity|]. rewrite !zs_cons. eapply seq_trans; [apply IH; intros; apply H; right; assumption|].
  apply zs_ext. apply seq_sym, act1_gate_comm, H. left; reflexivity.
Qed.
Lemma change_on g h : In h (basis_change g) -> gtarget h = gtarget g /\ gcontrol h = gtarget g.
Proof.
  unfold basis_change. destruct (String.eqb _ _); [intros [<-|[]]; split; reflexivity|]. destruct (String.eqb _ _); [intros [<-|[]]; split; reflexivity|intros []].
Qed.
Lemma one_gate g : pauli_gate g -> forall psi, exists m, gate_act g psi = act1 m (gtarget g) psi.
Proof. intros H psi. exists (gmat g). unfold gate_act. rewrite <- (pauli_gate_1q g H), Nat.eqb_refl. reflexivity. Qed.
Lemma circ_circ_comm as_ bs : Forall (fun a => gtarget a = gcontrol a) as_ -> Forall (fun a => Forall (off (gtarget a)) bs) as_ ->
  forall psi, circ_act as_ (circ_act bs psi) == circ_act bs (circ_act as_ psi).
Proof.
  induction as_ as [|a r IH]; intros H1 H2 psi; [intros I; reflexivity|]. inversion H1; subst. inversion H2; subst. rewrite !circ_act_cons.
  eapply seq_trans; [|apply IH; assumption]. apply circ_act_ext. unfold gate_act. rewrite <- H3, Nat.eqb_refl. apply act1_circ_comm; assumption.
Qed.
Lemma change_1q gs : Forall (fun a => gtarget a = gcontrol a) (flat_map basis_change gs).
Proof. apply Forall_forall. intros h Hh. apply in_flat_map in Hh. destruct Hh as (g & _ & Hh). destruct (change_on g h Hh) as [A B]. congruence. Qed.

Lemma to_z_intertwines gs : Forall pauli_gate gs -> NoDup (map gtarget gs) -> forall psi,
  circ_act (flat_map basis_change gs) (circ_act gs psi) == zs (map gtarget gs) (circ_act (flat_map basis_change gs) psi).
Proof.
  induction gs as [|g gs IH]; intros HP HN psi; [intros I; reflexivity|]. cbn [map] in *. apply NoDup_cons_iff in HN. destruct HN as [HN1 HN2].
  pose proof (Forall_inv HP) as Hg. pose proof (Forall_inv_tail HP) as Hr. cbn [flat_map]. rewrite !circ_act_app, circ_act_cons, zs_cons.
  assert (Hoff : forall h, In h (basis_change g) -> Forall (off (gtarget h)) gs).
  { intros h Hh. destruct (change_on g h Hh) as [-> _]. apply Forall_forall. intros x Hx. rewrite Forall_forall in Hr. unfold off. rewrite <- (pauli_gate_1q x (Hr x Hx)).
    assert (gtarget g <> gtarget x) by (intros E; apply HN1; rewrite E; apply in_map, Hx). auto. }
  eapply seq_trans. { apply circ_act_ext. apply circ_circ_comm; [|apply Forall_forall; exact Hoff]. pose proof (change_1q [g]) as Q. cbn [flat_map] in Q. rewrite app_nil_r in Q. exact Q. }
  eapply seq_trans. { apply circ_act_ext, circ_act_ext, change_act, Hg. }
  eapply seq_trans; [apply (IH Hr HN2)|]. apply zs_ext. apply seq_sym. apply act1_circ_comm. apply Forall_forall. intros h Hh. apply in_flat_map in Hh. destruct Hh as (x & Hx & Hh).
  destruct (change_on x h Hh) as [E1 E2]. unfold off. rewrite E1, E2. assert (gtarget g <> gtarget x) by (intros E; apply HN1; rewrite E; apply in_map, Hx). auto.
Qed.

(** ---- the CNOT ladder collects all Z on the last qubit ---- *)
Lemma sgn_xor a b : sgn (xorb a b) = sgn a * sgn b.
Proof. destruct a, b; cbn [sgn xorb]; ring. Qed.
Lemma cX_ZZ u t psi : u <> t -> gate_act (gcX u t) (zact u (zact t psi)) == zact u (gate_act (gcX u t) psi).
Proof.
  intros H I. unfold gcX. rewrite !act_2 by exact H. unfold zact. rewrite ev_Z, !ev_cX by exact H. rewrite !ev_Z.
  destruct (bit I t) eqn:E.
  - rewrite !bit_flip, Nat.eqb_refl. apply not_eq_sym in H. apply Nat.eqb_neq in H. rewrite H, E. destruct (bit I u); cbn [sgn negb]; ring.
  - rewrite E. cbn [sgn]. ring.
Qed.
Lemma ladder_intertwines ts : forall t, NoDup (t :: ts) -> forall psi,
  circ_act (ladder (Some t) ts) (zs (t :: ts) psi) == zact (last (t :: ts) 0%nat) (circ_act (ladder (Some t) ts) psi).
Proof.
  induction ts as [|u r IH]; intros t HN psi; [intros I; reflexivity|]. apply NoDup_cons_iff in HN. destruct HN as [HN1 HN2].
  cbn [ladder app]. rewrite !circ_act_cons, !zs_cons. replace (last (t :: u :: r) 0%nat) with (last (u :: r) 0%nat) by reflexivity.
  eapply seq_trans; [|apply IH, HN2]. apply circ_act_ext. rewrite zs_cons.
  assert (Hut : u <> t) by (intros ->; apply HN1; left; reflexivity).
  apply NoDup_cons_iff in HN2. destruct HN2 as [HN2 HN3].
  eapply seq_trans; [apply zs_gate|apply zs_ext, cX_ZZ, Hut]. intros x Hx. unfold off, gcX; cbn [gtarget gcontrol]. split; intros ->; [apply HN2, Hx|apply HN1; right; exact Hx].
Qed.
Lemma ladder_none ts : ladder None ts = match ts with [] => [] | t :: r => ladder (Some t) r end.
Proof. destruct ts; reflexivity. Qed.
Lemma nodup_chain prev ts : NoDup (match prev with Some p => p :: ts | None => ts end) -> chain_ok prev ts.
Proof.
  revert prev. induction ts as [|t r IH]; intros prev H; cbn [chain_ok]; [exact Logic.I|]. destruct prev as [p|].
  - apply NoDup_cons_iff in H. destruct H as [H1 H2]. split; [intros ->; apply H1; left; reflexivity|]. apply IH, H2.
  - split; [exact Logic.I|]. apply IH, H.
Qed.

(** W P = Z_last W *)
Definition Wgates (gs : list gate) : list gate := flat_map basis_change gs ++ ladder None (map gtarget gs).
Lemma W_intertwines gs : Forall pauli_gate gs -> NoDup (map gtarget gs) -> gs <> [] -> forall psi,
  circ_act (Wgates gs) (circ_act gs psi) == zact (last (map gtarget gs) 0%nat) (circ_act (Wgates gs) psi).
Proof.
  intros HP HN H0 psi. unfold Wgates. rewrite !circ_act_app. eapply seq_trans; [apply circ_act_ext, to_z_intertwines; assumption|]. rewrite ladder_none.
  destruct gs as [|g gs]; [congruence|]. cbn [map] in *. apply ladder_intertwines, HN.
Qed.
Lemma W_library gs : NoDup (map gtarget gs) -> Forall library_gate (Wgates gs).
Proof.
  intros HN. unfold Wgates. apply Forall_app. split.
  - apply Forall_forall. intros h Hh. apply in_flat_map in Hh. destruct Hh as (g & _ & Hh). unfold basis_change in Hh.
    destruct (String.eqb _ _); [destruct Hh as [<-|[]]; eapply py_lib, pyH|]. destruct (String.eqb _ _); [|destruct Hh]. destruct Hh as [<-|[]].
    apply (lib_make "Rx" (gtarget g) (gtarget g) (PI / 2)). unfold make_gate. rewrite Nat.eqb_refl. reflexivity.
  - pose proof (nodup_chain None _ HN) as HC. revert HC. generalize (@None nat). clear HN. induction (map gtarget gs) as [|t r IH]; intros prev HC; [constructor|]. cbn [ladder chain_ok] in *. destruct HC as [H1 H2].
    apply Forall_app. split; [|apply IH, H2]. destruct prev as [p|]; [|constructor]. constructor; [|constructor]. eapply py_lib, pycX, H1.
Qed.
Lemma W_off gs a : (forall g, In g gs -> a <> gtarget g) -> Forall (off a) (Wgates gs).
Proof.
  intros H. unfold Wgates. apply Forall_app. split.
  - apply Forall_forall. intros h Hh. apply in_flat_map in Hh. destruct Hh as (g & Hg & Hh). destruct (change_on g h Hh) as [-> ->] || idtac. unfold off. destruct (change_on g h Hh) as [-> ->]. split; apply H, Hg.
  - assert (HT : forall t, In t (map gtarget gs) -> a <> t) by (intros t Ht; apply in_map_iff in Ht; destruct Ht as (g & <- & Hg); apply H, Hg).
    assert (G : forall ts prev, (forall t, In t ts -> a <> t) -> (match prev with Some p => a <> p | None => True end) -> Forall (off a) (ladder prev ts)).
    { induction ts as [|t r IH]; intros prev H1 H2; [constructor|]. cbn [ladder]. apply Forall_app. split; [|apply IH; [intros; apply H1; right; assumption|apply H1; left; reflexivity]].
      destruct prev as [p|]; [|constructor]. constructor; [|constructor]. split; cbn [gcX gtarget gcontrol]; [apply H1; left; reflexivity|exact H2]. }
    apply G; [exact HT|exact Logic.I].
Qed.

(** ---- rotation about Z, plain and controlled ---- *)
Lemma Rz_euler y t psi : act1 (m_Rz (-2.0 * y)) t psi == euler y (zact t) psi.
Proof.
  intros I. rewrite ev_Rz. unfold euler, sadd, sscale, zact. rewrite ev_Z. destruct (bit I t); cbn [sgn].
  - replace (0.5 * (-2.0 * y))%R with (- y)%R by lra. rewrite Ccis_neg. unfold Ccis, Cconj; apply C_ext; cbn [Re Im Cmul Cadd RtoC Ci Cneg C1]; ring.
  - replace (- (0.5 * (-2.0 * y)))%R with y by lra. unfold Ccis; apply C_ext; cbn [Re Im Cmul Cadd RtoC Ci Cneg C1]; ring.
Qed.
Lemma euler_ext y P Q a b : (forall s, P s == Q s) -> (forall s s', s == s' -> P s == P s') -> a == b -> euler y P a == euler y Q b.
Proof. intros H HE E I. unfold euler, sadd, sscale. rewrite (E I), (HE a b E I), (H b I). reflexivity. Qed.
Lemma circ_euler gs y P Q psi : (forall s, circ_act gs (P s) == Q (circ_act gs s)) -> circ_act gs (euler y P psi) == euler y Q (circ_act gs psi).
Proof.
  intros H. unfold euler. eapply seq_trans; [apply circ_act_add|]. apply sadd_ext; eapply seq_trans; try apply circ_act_scale; apply sscale_ext; [apply seq_refl|apply H].
Qed.
Lemma conj_euler gs y P t psi : Forall library_gate gs -> (forall s, circ_act gs (P s) == zact t (circ_act gs s)) -> (forall s s', s == s' -> P s == P s') ->
  circ_act (circuit_adjoint gs) (euler y (zact t) (circ_act gs psi)) == euler y P psi.
Proof.
  intros HL H HE. eapply seq_trans. { apply circ_act_ext. apply seq_sym, (circ_euler gs y P (zact t)), H. } apply circuit_adjoint_undoes, HL.
Qed.
Lemma gate_controlled a f g phi psi : off a g -> gate_act g (controlled (fun I => f (bit I a)) phi psi) == controlled (fun I => f (bit I a)) (gate_act g phi) (gate_act g psi).
Proof.
  intros [H1 H2] I. unfold gate_act, controlled. destruct (Nat.eqb_spec (gtarget g) (gcontrol g)) as [E|E].
  - unfold act1. rewrite !(bit_upd_other _ (gtarget g)) by exact H1. destruct (f (bit I a)); reflexivity.
  - unfold act2. rewrite !(bit_upd_other _ (gtarget g)), !(bit_upd_other _ (gcontrol g)) by assumption. destruct (f (bit I a)); reflexivity.
Qed.
Lemma controlled_ext c a a' b b' : a == a' -> b == b' -> controlled c a b == controlled c a' b'.
Proof. intros H1 H2 I. unfold controlled. rewrite (H1 I), (H2 I). reflexivity. Qed.
Lemma circ_controlled a f gs : Forall (off a) gs -> forall phi psi, circ_act gs (controlled (fun I => f (bit I a)) phi psi) == controlled (fun I => f (bit I a)) (circ_act gs phi) (circ_act gs psi).
Proof.
  induction 1 as [|g gs Hg _ IH]; intros phi psi; [intros I; reflexivity|]. rewrite !circ_act_cons. eapply seq_trans; [apply circ_act_ext, gate_controlled, Hg|apply IH].
Qed.
Definition gcRz (t a : nat) (x : R) : gate := let p := normalize_angle x (4 * PI) in mkGate "cRz" t a (m_cRz p) (Some (p, true)).
Definition gRz (t : nat) (x : R) : gate := let p := normalize_angle x (4 * PI) in mkGate "Rz" t t (m_Rz p) (Some (p, true)).
Definition gX1 (t : nat) : gate := mkGate "X" t t m_X None.
Lemma make_cRz t a x : t <> a -> py_gate3 "cRz" t a x = Ok (gcRz t a x).
Proof. intros H. unfold py_gate3, make_gate. rewrite (neq_eqb _ _ H). reflexivity. Qed.
Lemma make_Rz t x : py_gate3 "Rz" t t x = Ok (gRz t x).
Proof. unfold py_gate3, make_gate. rewrite Nat.eqb_refl. reflexivity. Qed.
Lemma make_X t : py_gate2 "X" t t = Ok (gX1 t).
Proof. unfold py_gate2, make_gate. rewrite Nat.eqb_refl. reflexivity. Qed.
Lemma Rz_act t y psi : gate_act (gRz t (-2.0 * y)) psi == euler y (zact t) psi.
Proof. unfold gRz. cbv zeta. rewrite act_1, m_Rz_norm. apply Rz_euler. Qed.
Lemma cRz_act t a y psi : t <> a -> gate_act (gcRz t a (-2.0 * y)) psi == controlled (fun I => bit I a) (euler y (zact t) psi) psi.
Proof.
  intros H I. unfold gcRz. cbv zeta. rewrite act_2, m_cRz_norm, ev_cRz by exact H. unfold controlled. destruct (bit I a); [apply Rz_euler|reflexivity].
Qed.
Lemma euler_zact_flip a t y psi I : t <> a -> euler y (zact t) (fun J => psi (flip J a)) (flip I a) = euler y (zact t) psi I.
Proof.
  intros H. unfold euler, sadd, sscale, zact. rewrite !ev_Z, flip_flip, bit_flip. apply neq_eqb in H. rewrite H. reflexivity.
Qed.
Lemma open_cRz_act t a y psi : t <> a -> circ_act [gX1 a; gcRz t a (-2.0 * y); gX1 a] psi == controlled (fun I => negb (bit I a)) (euler y (zact t) psi) psi.
Proof.
  intros H I. unfold circ_act; cbn [fold_left]. unfold gX1 at 1. rewrite act_1, ev_X, (cRz_act t a y _ H (flip I a)). unfold controlled. rewrite bit_flip, Nat.eqb_refl.
  unfold gX1. rewrite act_1. destruct (bit I a); cbn [negb].
  - rewrite ev_X, flip_flip. reflexivity.
  - rewrite <- (euler_zact_flip a t y psi I H). apply euler_ext; [intros s J; reflexivity|intros s s'; apply act1_ext|]. intros J. rewrite ev_X. reflexivity.
Qed.

(** ---- the circuits returned ---- *)
Definition exp_word (gs : list gate) : Prop := Forall word_gate gs /\ NoDup (map gtarget (sup gs)).
Lemma adjoint_app a b : circuit_adjoint (a ++ b) = circuit_adjoint b ++ circuit_adjoint a.
Proof. unfold circuit_adjoint. rewrite map_app, rev_app_distr. reflexivity. Qed.
Definition mid_gates (ctl open : bool) (t a : nat) (y : R) : list gate :=
  (if open then [gX1 a] else []) ++ [if ctl then gcRz t a (-2.0 * y) else gRz t (-2.0 * y)] ++ (if open then [gX1 a] else []).
Lemma exponentiate_eq y gs ctl a open : exp_word gs -> sup gs <> [] -> (ctl = true -> ~ In a (map gtarget (sup gs))) ->
  exponentiate_pauli_string (mkC 0 y) gs ctl (Some a) open =
  Ok (Wgates (sup gs) ++ mid_gates ctl open (last (map gtarget (sup gs)) 0%nat) a y ++ circuit_adjoint (Wgates (sup gs)), C1).
Proof.
  intros [HW HN] H0 HA. unfold exponentiate_pauli_string. cbn [Re Im]. rewrite Rabs_R0, Rltb_false by lra.
  destruct gs as [|g gs]; [contradiction|]. rewrite exp_loop; [|exact HW|apply nodup_chain, HN]. cbn [bind to_z cX_circ max_target app].
  unfold last_opt. destruct (map gtarget (sup (g :: gs))) as [|t ts] eqn:ET; [destruct (sup (g :: gs)); [congruence|discriminate]|]. cbn [py_int bind].
  set (tl := last (t :: ts) 0%nat) in *. assert (HL : In tl (t :: ts)).
  { subst tl. generalize t ts. clear. intros t ts. revert t. induction ts as [|u r IH]; intros t; [left; reflexivity|]. right. apply IH. }
  assert (EZ : (if ctl then py_gate3 "cRz" tl a (-2.0 * y) else py_gate3 "Rz" tl tl (-2.0 * y)) = Ok (if ctl then gcRz tl a (-2.0 * y) else gRz tl (-2.0 * y))).
  { destruct ctl; [apply make_cRz; intros ->; apply HA; [reflexivity|exact HL]|apply make_Rz]. }
  rewrite EZ. cbn [bind]. unfold mid_gates. rewrite make_X. unfold Wgates. rewrite ET, adjoint_app. destruct open; cbn [bind app]; rewrite <- ?app_assoc; reflexivity.
Qed.
(** without an ancilla *)
Lemma exponentiate_plain y gs : exp_word gs -> sup gs <> [] ->
  exponentiate_pauli_string (mkC 0 y) gs false None false =
  Ok (Wgates (sup gs) ++ [gRz (last (map gtarget (sup gs)) 0%nat) (-2.0 * y)] ++ circuit_adjoint (Wgates (sup gs)), C1).
Proof.
  intros [HW HN] H0. unfold exponentiate_pauli_string. cbn [Re Im]. rewrite Rabs_R0, Rltb_false by lra.
  destruct gs as [|g gs]; [contradiction|]. rewrite exp_loop; [|exact HW|apply nodup_chain, HN]. cbn [bind to_z cX_circ max_target app].
  unfold last_opt. destruct (map gtarget (sup (g :: gs))) as [|t ts] eqn:ET; [destruct (sup (g :: gs)); [congruence|discriminate]|]. cbn [py_int bind].
  rewrite make_Rz. cbn [bind app]. unfold Wgates. rewrite ET, adjoint_app. rewrite <- ?app_assoc; reflexivity.
Qed.
Lemma Rz_lib t x : library_gate (gRz t x).
Proof. apply (lib_make "Rz" t t x). apply make_Rz. Qed.
Lemma cRz_lib t a x : t <> a -> library_gate (gcRz t a x).
Proof. intros H. apply (lib_make "cRz" t a x). apply make_cRz, H. Qed.
Lemma X1_lib t : library_gate (gX1 t).
Proof. eapply py_lib, make_X. Qed.
Lemma adjoint_lib gs : Forall library_gate gs -> Forall library_gate (circuit_adjoint gs).
Proof. intros H. unfold circuit_adjoint. apply Forall_rev. rewrite Forall_map. eapply Forall_impl; [|exact H]. intros g. apply lib_adjoint. Qed.
Lemma plain_act y gs psi : exp_word gs -> sup gs <> [] ->
  circ_act (Wgates (sup gs) ++ [gRz (last (map gtarget (sup gs)) 0%nat) (-2.0 * y)] ++ circuit_adjoint (Wgates (sup gs))) psi == euler y (circ_act gs) psi.
Proof.
  intros [HW HN] H0. rewrite !circ_act_app. set (t := last _ 0%nat). pose proof (sup_pauli gs HW) as HP.
  eapply seq_trans. { apply circ_act_ext. unfold circ_act at 1; cbn [fold_left]. apply Rz_act. }
  eapply seq_trans; [apply (conj_euler _ y (circ_act (sup gs)) t); [apply W_library, HN|intros s; apply W_intertwines; assumption|intros; apply circ_act_ext; assumption]|].
  apply euler_ext; [intros s; apply seq_sym, sup_act, HW|intros; apply circ_act_ext; assumption|apply seq_refl].
Qed.
Lemma ctl_act y gs a open psi : exp_word gs -> sup gs <> [] -> ~ In a (map gtarget (sup gs)) ->
  circ_act (Wgates (sup gs) ++ mid_gates true open (last (map gtarget (sup gs)) 0%nat) a y ++ circuit_adjoint (Wgates (sup gs))) psi
  == controlled (fun I => xorb open (bit I a)) (euler y (circ_act gs) psi) psi.
Proof.
  intros [HW HN] H0 HA. rewrite !circ_act_app. set (t := last _ 0%nat). pose proof (sup_pauli gs HW) as HP.
  assert (HT : In t (map gtarget (sup gs))).
  { subst t. destruct (map gtarget (sup gs)) as [|u r] eqn:E; [destruct (sup gs); [congruence|discriminate]|]. generalize u r. clear. intros u r. revert u. induction r as [|v r IH]; intros u; [left; reflexivity|]. right. apply IH. }
  assert (Hta : t <> a) by (intros ->; contradiction).
  set (phi := circ_act (Wgates (sup gs)) psi).
  assert (HM : circ_act (mid_gates true open t a y) phi == controlled (fun I => xorb open (bit I a)) (euler y (zact t) phi) phi).
  { unfold mid_gates. destruct open; cbn [app].
    - eapply seq_trans; [apply open_cRz_act, Hta|]. intros I. unfold controlled. destruct (bit I a); reflexivity.
    - eapply seq_trans; [unfold circ_act; cbn [fold_left]; apply cRz_act, Hta|]. intros I. unfold controlled. destruct (bit I a); reflexivity. }
  eapply seq_trans; [apply circ_act_ext, HM|].
  assert (HO : Forall (off a) (circuit_adjoint (Wgates (sup gs)))).
  { unfold circuit_adjoint. apply Forall_rev. rewrite Forall_map. eapply Forall_impl; [|apply (W_off (sup gs) a)].
    - intros g [H1 H2]. destruct (adjoint_qubits g) as [E1 E2]. unfold off. rewrite E1, E2. split; assumption.
    - intros g Hg ->. apply HA, in_map, Hg. }
  eapply seq_trans; [apply (circ_controlled a (xorb open) _ HO)|]. apply controlled_ext.
  - subst phi. eapply seq_trans; [apply (conj_euler _ y (circ_act (sup gs)) t); [apply W_library, HN|intros s; apply W_intertwines; assumption|intros; apply circ_act_ext; assumption]|].
    apply euler_ext; [intros s; apply seq_sym, sup_act, HW|intros; apply circ_act_ext; assumption|apply seq_refl].
  - apply circuit_adjoint_undoes, W_library, HN.
Qed.
(** a Pauli word is an involution *)
Lemma word_invol gs psi : exp_word gs -> circ_act gs (circ_act gs psi) == psi.
Proof.
  intros [HW HN]. pose proof (sup_pauli gs HW) as HP. eapply seq_trans; [apply sup_act, HW|]. eapply seq_trans; [apply circ_act_ext, sup_act, HW|].
  eapply seq_trans; [apply circ_act_ext, seq_sym, wact_circ; assumption|]. apply circ_wact_inv, HP.
Qed.
