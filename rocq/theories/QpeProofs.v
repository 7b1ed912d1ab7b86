(** The state of the QPE circuit. *)
From Coq Require Import Reals String List Arith ZArith Bool Lia Lra FunctionalExtensionality.
From Verif Require Import CBase Result Bits Spec OpSpec GateModel ComputerModel SafeProofs GateProofs LibProofs CleanProofs SimProofs CircuitModel PauliProofs OperatorModel MeasureModel MeasureProofs QftSpec GateEval ThreeQubit PyModel PyApply ExpSpec ExpProofs ExpCircuit FermiProofs GradModel GradSpec GradProofs PropOperator PropMeasure PropGrad QkModel QkProofs QpeModel HadProofs PropQk.
From Verif Require TrotterProofs PropPy QftProofs PropAnsatz.
Import QftProofs.
Import TrotterProofs.
Import ListNotations.
Local Open Scope nat_scope.

Lemma seq_eq (a b : state) : a == b -> a = b.
Proof. intros H. apply functional_extensionality, H. Qed.

(** ---- gates on the state qubits ---- *)
Lemma put0_bit n N I t : t < n -> bit (put n N I 0) t = bit I t.
Proof. intros H. rewrite bit_put. replace (Nat.leb n t) with false by (symmetry; apply Nat.leb_gt, H). reflexivity. Qed.
Lemma put0_upd n N I t b : t < n -> put n N (upd I t b) 0 = upd (put n N I 0) t b.
Proof. intros H. apply bits_ext. intros k. rewrite bit_put, !bit_upd, bit_put. destruct (Nat.eqb_spec k t) as [->|K]; [|reflexivity]. replace (Nat.leb n t) with false by (symmetry; apply Nat.leb_gt, H). reflexivity. Qed.
Definition upper {X} (n : nat) (A : nat -> X) : Prop := forall I t b, t < n -> A (upd I t b) = A I.
Definition over {X} (n N : nat) (A : nat -> X) (G : X -> state) : state := fun I => G (A I) (put n N I 0).
Lemma over_gate {X} n N (A : nat -> X) G g : upper n A -> in_range n g -> gate_act g (over n N A G) == over n N A (fun x => gate_act g (G x)).
Proof.
  intros HA (H1 & H2) I. unfold over, gate_act. destruct (Nat.eqb (gtarget g) (gcontrol g)).
  - unfold act1. rewrite !HA, !put0_upd, put0_bit by assumption. reflexivity.
  - unfold act2. rewrite !(HA (upd _ _ _)), !HA, !put0_upd, !put0_bit by assumption. reflexivity.
Qed.
Lemma over_circ {X} n N (A : nat -> X) gs : upper n A -> Forall (in_range n) gs -> forall G, circ_act gs (over n N A G) == over n N A (fun x => circ_act gs (G x)).
Proof.
  intros HA. induction 1 as [|g gs Hg _ IH]; intros G; [apply seq_refl|]. rewrite circ_act_cons. eapply seq_trans; [apply circ_act_ext, over_gate; assumption|]. eapply seq_trans; [apply IH|]. intros I. reflexivity.
Qed.
Lemma over_eulers {X} n N (A : nat -> X) l : upper n A -> Forall (fun t => Forall (in_range n) (snd t)) l -> forall G, eulers l (over n N A G) == over n N A (fun x => eulers l (G x)).
Proof.
  intros HA. induction 1 as [|[y P] l HP _ IH]; intros G; [apply seq_refl|]. cbn [eulers]. eapply seq_trans; [|apply (IH (fun x => euler y (circ_act P) (G x)))]. apply eulers_ext.
  intros I. unfold euler, sadd, sscale. rewrite (over_circ n N A P HA HP G I). reflexivity.
Qed.

(** ---- Hadamards on the ancillas ---- *)
Lemma Uhad_ok a k : foreach (seq a k) (fun j c => do g <- py_gate2 "H" j j; Ok (c ++ [g])%list) [] = Ok (map gHd (seq a k)).
Proof.
  change (map gHd (seq a k)) with ([] ++ map gHd (seq a k))%list. apply foreach_snoc. intros x _. unfold py_gate2, make_gate. cbn [existsb String.eqb Ascii.eqb Bool.eqb orb]. rewrite Nat.eqb_refl. reflexivity.
Qed.
Definition clear (a k : nat) (psi : state) : Prop := forall I q, a <= q < a + k -> bit I q = true -> psi I = C0.
Lemma had_act a k psi : clear a k psi -> circ_act (map gHd (seq a k)) psi == fun I => (RtoC (rsqrt2 ^ k) * psi (put a k I 0))%C.
Proof.
  intros HC. induction k as [|k IH]; [intros I; change (RtoC (rsqrt2 ^ 0)) with C1; change (circ_act [] psi I = (C1 * psi I)%C); unfold circ_act; cbn [fold_left]; ring|]. rewrite seq_S, map_app, circ_act_app. intros I. cbn [map]. unfold circ_act at 1. cbn [fold_left].
  rewrite (gate_act_ext (gHd (a + k)) _ _ (IH ltac:(intros J q Hq; apply HC; lia))). unfold gHd. rewrite act_1, ev_H.
  assert (E1 : put a k (upd I (a + k) false) 0 = put a (S k) I 0). { apply bits_ext. intros q. rewrite !bit_put, bit_upd. destruct (Nat.eqb_spec q (a + k)) as [->|K].
    - replace (Nat.ltb (a + k) (a + k)) with false by (symmetry; apply Nat.ltb_ge; lia). rewrite andb_false_r. replace (Nat.leb a (a + k)) with true by (symmetry; apply Nat.leb_le; lia). replace (Nat.ltb (a + k) (a + S k)) with true by (symmetry; apply Nat.ltb_lt; lia). unfold bit. rewrite Nat.bits_0. reflexivity.
    - replace (Nat.ltb q (a + S k)) with (Nat.ltb q (a + k)) by (destruct (Nat.ltb_spec q (a + k)), (Nat.ltb_spec q (a + S k)); try reflexivity; lia). unfold bit. rewrite !Nat.bits_0. reflexivity. }
  assert (E2 : psi (put a k (upd I (a + k) true) 0) = C0). { apply (HC _ (a + k)); [lia|]. rewrite bit_put, bit_upd, Nat.eqb_refl. replace (Nat.ltb (a + k) (a + k)) with false by (symmetry; apply Nat.ltb_ge; lia). rewrite andb_false_r. reflexivity. }
  rewrite E1, E2. replace (RtoC (rsqrt2 ^ S k)) with (RtoC rsqrt2 * RtoC (rsqrt2 ^ k))%C by (apply C_ext; cbn; ring). ring.
Qed.

(** ---- the evolution of the state qubits ---- *)
Definition isid (P : list gate) : bool := Nat.eqb (length P) 0.
Definition ylist (m : nat) (t : R) (ham : qop) : list (R * list gate) :=
  concat (repeat (map (fun u => (- t * Re (fst u) * / INR m, snd u)%R) ham) m).
Lemma concat_repeat_map {A B} (f : A -> B) l m : map f (concat (repeat l m)) = concat (repeat (map f l) m).
Proof. induction m as [|m IH]; [reflexivity|]. cbn [repeat concat]. rewrite map_app, IH. reflexivity. Qed.
Lemma concat_repeat_filter {A} (f : A -> bool) l m : filter f (concat (repeat l m)) = concat (repeat (filter f l) m).
Proof. induction m as [|m IH]; [reflexivity|]. cbn [repeat concat]. rewrite filter_app, IH. reflexivity. Qed.
Lemma in_concat_repeat {A} (l : list A) m x : In x (concat (repeat l m)) -> In x l.
Proof. intros H. apply in_concat in H. destruct H as (y & Hy & Hx). apply repeat_spec in Hy. now subst. Qed.
Lemma full_opened m t ham : Forall (fun u => Im (fst u) = 0%R) ham -> scaled (mkC 0 (- t)) m ham = opened (ylist m t ham).
Proof.
  intros H. unfold scaled, opened, ylist. rewrite concat_repeat_map, map_map. do 2 f_equal. apply map_ext_in. intros u Hu. cbn [fst snd]. f_equal. rewrite Forall_forall in H. apply C_ext; cbn [Re Im Cmul RtoC]; rewrite (H u Hu); ring.
Qed.
Definition body_terms (ham : qop) : qop := filter (fun u => negb (isid (snd u))) ham.
Lemma split_terms_eq ham t : split_terms ham t = (map (fun u => (fst u * RtoC t)%C) (filter (fun u => isid (snd u)) ham), map (fun u => ((mkC 0 (-1) * fst u * RtoC t)%C, snd u)) (body_terms ham)).
Proof.
  unfold split_terms. assert (G : forall a, fold_left (fun a u => let phase := (mkC 0 (-1) * fst u * RtoC t)%C in if Nat.eqb (length (snd u)) 0 then ((fst a ++ [fst u * RtoC t])%list%C, snd a) else (fst a, (snd a ++ [(phase, snd u)])%list)) ham a =
    ((fst a ++ map (fun u => (fst u * RtoC t)%C) (filter (fun u => isid (snd u)) ham))%list, (snd a ++ map (fun u => ((mkC 0 (-1) * fst u * RtoC t)%C, snd u)) (body_terms ham))%list)).
  { induction ham as [|u ham IH]; intros [a b]; cbn [fold_left filter map fst snd body_terms]; [now rewrite !app_nil_r|]. rewrite IH. unfold body_terms. cbn [filter]. change (Nat.eqb (length (snd u)) 0) with (isid (snd u)). destruct (isid (snd u)); cbn [negb fst snd map]; rewrite <- ?app_assoc; reflexivity. }
  apply (G ([], [])).
Qed.
Lemma body_opened m t ham : Forall (fun u => Im (fst u) = 0%R) ham -> scaled C1 m (snd (split_terms ham t)) = opened (ylist m t (body_terms ham)).
Proof.
  intros H. rewrite split_terms_eq. cbn [snd]. unfold scaled, opened, ylist. rewrite concat_repeat_map, !map_map. do 2 f_equal. apply map_ext_in. intros u Hu. cbn [fst snd]. f_equal. apply filter_In in Hu. rewrite Forall_forall in H. apply C_ext; cbn [Re Im Cmul RtoC C1]; rewrite (H u (proj1 Hu)); ring.
Qed.
Definition Rsum {A} (f : A -> R) (l : list A) : R := fold_right (fun x s => (f x + s)%R) 0%R l.
Lemma Rsum_app {A} (f : A -> R) a b : Rsum f (a ++ b) = (Rsum f a + Rsum f b)%R.
Proof. unfold Rsum. induction a as [|x a IH]; cbn [app fold_right]; [ring|]. rewrite IH. ring. Qed.
Lemma Rsum_cons {A} (f : A -> R) x l : Rsum f (x :: l) = (f x + Rsum f l)%R.
Proof. reflexivity. Qed.
Lemma eulers_ids l : forall psi, eulers l psi == sscale (Ccis (Rsum (fun u => if isid (snd u) then fst u else 0%R) l)) (eulers (filter (fun u => negb (isid (snd u))) l) psi).
Proof.
  induction l as [|[y P] l IH]; intros psi; cbn [eulers filter fst snd].
  - intros I. change (Rsum (fun u : R * list gate => if isid (snd u) then fst u else 0%R) []) with 0%R. unfold sscale. rewrite Ccis_0. ring.
  - rewrite Rsum_cons. cbn [fst snd]. destruct P as [|g P]; cbn [isid length Nat.eqb negb].
    + eapply seq_trans; [apply eulers_ext, euler_nil|]. eapply seq_trans; [apply eulers_scale|]. intros I. unfold sscale at 1. rewrite (IH psi I). unfold sscale. rewrite Ccis_add. ring.
    + eapply seq_trans; [apply IH|]. cbn [eulers]. rewrite Rplus_0_l. apply seq_refl.
Qed.
Definition ident_sum (t : R) (ham : qop) : R := Rsum (fun u => if isid (snd u) then (Re (fst u) * t)%R else 0%R) ham.
Lemma ylist_ids m t ham : 1 <= m -> Rsum (fun u => if isid (snd u) then fst u else 0%R) (ylist m t ham) = (- ident_sum t ham)%R.
Proof.
  intros Hm. unfold ylist. assert (G : forall k b, Rsum (fun u : R * list gate => if isid (snd u) then fst u else 0%R) (concat (repeat b k)) = (INR k * Rsum (fun u => if isid (snd u) then fst u else 0%R) b)%R).
  { intros k b. induction k as [|k IH]; [cbn; ring|]. cbn [repeat concat]. rewrite Rsum_app, IH, S_INR. ring. }
  rewrite G. assert (E : Rsum (fun u : R * list gate => if isid (snd u) then fst u else 0%R) (map (fun u : C * list gate => ((- t * Re (fst u) * / INR m)%R, snd u)) ham) = (- ident_sum t ham * / INR m)%R).
  { unfold ident_sum, Rsum. induction ham as [|u ham IH]; cbn [map fold_right fst snd]; [ring|]. rewrite IH. destruct (isid (snd u)); ring. }
  rewrite E. field. apply not_0_INR. lia.
Qed.
Lemma ylist_body m t ham : filter (fun u => negb (isid (snd u))) (ylist m t ham) = ylist m t (body_terms ham).
Proof.
  unfold ylist. rewrite concat_repeat_filter. do 2 f_equal. unfold body_terms. induction ham as [|u ham IH]; [reflexivity|]. cbn [map filter snd]. destruct (negb (isid (snd u))); cbn [map]; now rewrite IH.
Qed.
(** one step of the evolution, identity terms included *)
Definition evolve (m : nat) (t : R) (ham : qop) (psi : state) : state := eulers (ylist m t ham) psi.
Lemma evolve_split m t ham psi : 1 <= m -> evolve m t ham psi = sscale (Ccis (- ident_sum t ham)) (eulers (ylist m t (body_terms ham)) psi).
Proof. intros Hm. apply seq_eq. unfold evolve. eapply seq_trans; [apply eulers_ids|]. rewrite ylist_ids, ylist_body by exact Hm. apply seq_refl. Qed.
Lemma evolve_product n m t ham psi : Hamiltonian n ham -> exp_product (PropPy.trotter_factors (mkC 0 (- t)) m ham) psi (evolve m t ham psi).
Proof.
  intros H. unfold Hamiltonian in H. rewrite PropPy.factors_acting, full_opened by (eapply Forall_impl; [|exact H]; intros u Hu; apply Hu). apply eulers_product; [|apply seq_refl].
  apply Forall_forall. intros u Hu. apply in_concat_repeat in Hu. apply in_map_iff in Hu. destruct Hu as (v & <- & Hv). rewrite Forall_forall in H. exact (string_word n _ (proj1 (H v Hv))).
Qed.
Lemma iter_evolve m t ham k : 1 <= m -> forall psi, Nat.iter k (evolve m t ham) psi = Nat.iter k (eulers (ylist m t (body_terms ham))) (sscale (Ccis (- (INR k * ident_sum t ham))) psi).
Proof.
  intros Hm. assert (S1 : forall j c psi, Nat.iter j (eulers (ylist m t (body_terms ham))) (sscale c psi) = sscale c (Nat.iter j (eulers (ylist m t (body_terms ham))) psi)).
  { induction j as [|j IH]; intros c psi; [reflexivity|]. change (Nat.iter (S j) ?f ?x) with (f (Nat.iter j f x)). rewrite IH. apply seq_eq, eulers_scale. }
  intros psi. rewrite S1. induction k as [|k IH].
  - cbn [Nat.iter INR]. apply seq_eq. intros I. unfold sscale. replace (- (0 * ident_sum t ham))%R with 0%R by ring. rewrite Ccis_0. cbn. ring.
  - change (Nat.iter (S k) (evolve m t ham) psi) with (evolve m t ham (Nat.iter k (evolve m t ham) psi)). rewrite IH, evolve_split by exact Hm.
    change (Nat.iter (S k) ?f ?x) with (f (Nat.iter k f x)). rewrite (seq_eq _ _ (eulers_scale (ylist m t (body_terms ham)) _ _)). apply seq_eq. intros I. unfold sscale. rewrite S_INR.
    replace (- ((INR k + 1) * ident_sum t ham))%R with (- ident_sum t ham + - (INR k * ident_sum t ham))%R by ring. rewrite Ccis_add. ring.
Qed.

(** ---- the controlled evolutions ---- *)
Definition gRt (a : nat) (x : R) : gate := let p := normalize_angle x (2 * PI) in mkGate "R" a a (m_R p) (Some (p, true)).
Lemma gRt_act a x psi : gate_act (gRt a x) psi == fun I => ((if bit I a then Ccis x else C1) * psi I)%C.
Proof.
  intros I. unfold gRt. cbv zeta. rewrite act_1, m_R_norm. unfold act1, m_R, mk44. destruct (bit I a) eqn:E; cbn [b2n nth Nat.mul Nat.add].
  - rewrite (upd_id' I a true E). ring.
  - rewrite (upd_id' I a false E). ring.
Qed.
Lemma gRt_applicable n a x : a < n -> applicable n [gRt a x].
Proof.
  intros H. apply applicable_made; [|repeat constructor; exact H]. constructor; [|constructor]. exists "R"%string, a, a, x. split; [reflexivity|]. unfold make_gate. rewrite Nat.eqb_refl. reflexivity.
Qed.
Lemma applicable_repeat n gs k : applicable n gs -> applicable n (concat (repeat gs k)).
Proof. intros H. induction k as [|k IH]; [apply applicable_nil|]. cbn [repeat concat]. now apply applicable_app. Qed.
Lemma Csum_ids t ham : Forall (fun u => Im (fst u) = 0%R) ham -> Csum (fun z => z) (map (fun u => (fst u * RtoC t)%C) (filter (fun u => isid (snd u)) ham)) = RtoC (ident_sum t ham).
Proof.
  unfold ident_sum. induction 1 as [|u ham Hu _ IH]; [reflexivity|]. cbn [filter]. rewrite Rsum_cons. destruct (isid (snd u)); [|rewrite Rplus_0_l; exact IH]. cbn [map]. rewrite Csum_cons, IH. apply C_ext; cbn [Re Im Cadd Cmul RtoC]; rewrite ?Hu; ring.
Qed.
Definition terms_real (ham : qop) : Prop := Forall (fun u => Im (fst u) = 0%R) ham.
Lemma ham_real n ham : Hamiltonian n ham -> terms_real ham.
Proof. intros H. eapply Forall_impl; [|exact H]. intros u Hu. apply Hu. Qed.
Lemma ctl_body n a m t ham : 1 <= m -> Hamiltonian n ham -> n <= a -> exists gs,
  trotterize_w_cRz (snd (split_terms ham t)) a C1 false m 1 = Ok (gs, C1) /\
  (forall psi, circ_act gs psi == controlled (fun I => bit I a) (eulers (ylist m t (body_terms ham)) psi) psi) /\ (forall k, a < k -> applicable k gs).
Proof.
  intros Hm HH Ha. unfold trotterize_w_cRz. rewrite trotter_scaled, body_opened by (try exact Hm; exact (ham_real n ham HH)).
  assert (HI : forall u, In u (ylist m t (body_terms ham)) -> StringOn n (snd u) /\ snd u <> []).
  { intros u Hu. apply in_concat_repeat in Hu. apply in_map_iff in Hu. destruct Hu as (v & <- & Hv). apply filter_In in Hv. destruct Hv as (Hv & Hn). unfold Hamiltonian in HH. rewrite Forall_forall in HH. split; [apply (HH v Hv)|]. cbn [snd]. intros E. rewrite E in Hn. discriminate. }
  destruct (ctl_terms a false (ylist m t (body_terms ham))) with (g0 := @nil gate) (p0 := C1) as (gs & E & L & A & R).
  - apply Forall_forall. intros u Hu. destruct (HI u Hu) as (HS & HN). split; [exact (string_word n _ HS)|]. split.
    + destruct (string_term n _ HS) as (_ & [|]); [contradiction|assumption].
    + intros Hi. apply in_map_iff in Hi. destruct Hi as (h & Eh & Hh). apply filter_In in Hh. destruct HS as (_ & HR). rewrite Forall_forall in HR. specialize (HR h (proj1 Hh)). lia.
  - unfold exp_terms. rewrite E. exists gs. split; [reflexivity|]. split.
    + intros psi I. rewrite (A psi I). unfold controlled. destruct (bit I a); reflexivity.
    + intros k Hk. apply R; [|exact Hk]. apply Forall_forall. intros u Hu g Hg. destruct (HI u Hu) as ((_ & HR) & _). rewrite Forall_forall in HR. specialize (HR g Hg). lia.
Qed.
Lemma lval_snoc n j I : lval n (S j) I = lval n j I + b2n (bit I (n + j)) * 2 ^ j.
Proof. rewrite !lval_sum, seq_S, map_app, list_sum_app. cbn [map list_sum fold_right]. rewrite Nat.add_0_l. lia. Qed.
Lemma lval_upd n j I t b : t < n -> lval n j (upd I t b) = lval n j I.
Proof. intros H. rewrite !lval_sum. apply list_sum_map_ext. intros l _. rewrite bit_upd, (neq_eqb (n + l) t) by lia. reflexivity. Qed.
Lemma iter_ext_state (f : state -> state) k a b : a = b -> Nat.iter k f a = Nat.iter k f b.
Proof. now intros ->. Qed.
Lemma iter_plus {A} (f : A -> A) a b x : Nat.iter (a + b) f x = Nat.iter a f (Nat.iter b f x).
Proof. induction a as [|a IH]; [reflexivity|]. cbn [Nat.add]. change (Nat.iter (S ?k) f ?y) with (f (Nat.iter k f y)). now rewrite IH. Qed.
Definition history (n N : nat) (j : nat) (W : state -> state) (ref : state) : state := over n N (lval n j) (fun k => Nat.iter k W ref).
Lemma stage_act_ok n N j m t ham ref gs : 1 <= m -> Hamiltonian n ham ->
  (forall psi, circ_act gs psi == controlled (fun I => bit I (n + j)) (eulers (ylist m t (body_terms ham)) psi) psi) ->
  circ_act ([gRt (n + j) (- ident_sum t ham * 2 ^ j)] ++ concat (repeat gs (2 ^ j))) (history n N j (evolve m t ham) ref) == history n N (S j) (evolve m t ham) ref.
Proof.
  intros Hm HH HG. set (E := eulers (ylist m t (body_terms ham))) in *. set (W := evolve m t ham). set (A := fun I => (lval n j I, bit I (n + j))).
  assert (HA : upper n A). { intros I q b Hq. unfold A. rewrite lval_upd, bit_upd, (neq_eqb (n + j) q) by lia. reflexivity. }
  assert (HR : Forall (fun u => Forall (in_range n) (snd u)) (ylist m t (body_terms ham))).
  { apply Forall_forall. intros u Hu. apply in_concat_repeat in Hu. apply in_map_iff in Hu. destruct Hu as (v & <- & Hv). apply filter_In in Hv. unfold Hamiltonian in HH. rewrite Forall_forall in HH. cbn [snd]. exact (proj2 (proj2 (string_applicable n _ (proj1 (HH v (proj1 Hv)))))). }
  assert (HREP : forall k G, circ_act (concat (repeat gs k)) (over n N A G) == over n N A (fun x => if snd x then Nat.iter k E (G x) else G x)).
  { induction k as [|k IH]; intros G; [intros I; unfold over; cbn [repeat concat Nat.iter]; unfold circ_act; cbn; destruct (bit I (n + j)); reflexivity|]. cbn [repeat concat]. rewrite circ_act_app.
    assert (E1 : circ_act gs (over n N A G) == over n N A (fun x => if snd x then E (G x) else G x)).
    { eapply seq_trans; [apply HG|]. intros I. unfold controlled. unfold E at 1. rewrite (over_eulers n N A (ylist m t (body_terms ham)) HA HR G I). unfold over. cbn [A snd]. unfold A. cbn [snd]. destruct (bit I (n + j)); reflexivity. }
    eapply seq_trans; [apply circ_act_ext, E1|]. eapply seq_trans; [apply IH|]. intros I. unfold over. destruct (snd (A I)); [|reflexivity]. change (Nat.iter (S k) E (G (A I))) with (E (Nat.iter k E (G (A I)))). assert (C : forall x, Nat.iter k E (E x) = E (Nat.iter k E x)). { clear. intros x. induction k as [|k IH]; [reflexivity|]. change (Nat.iter (S k) E ?y) with (E (Nat.iter k E y)). now rewrite IH. } now rewrite C. }
  rewrite circ_act_app. assert (E0 : circ_act [gRt (n + j) (- ident_sum t ham * 2 ^ j)] (history n N j W ref) == over n N A (fun x => if snd x then sscale (Ccis (- ident_sum t ham * 2 ^ j)) (Nat.iter (fst x) W ref) else Nat.iter (fst x) W ref)).
  { unfold circ_act. cbn [fold_left]. eapply seq_trans; [apply gRt_act|]. intros I. unfold history, over, A. cbn [fst snd]. destruct (bit I (n + j)); [reflexivity|ring]. }
  eapply seq_trans; [apply circ_act_ext, E0|]. eapply seq_trans; [apply HREP|]. intros I. unfold history, over, A. cbn [fst snd]. rewrite lval_snoc. destruct (bit I (n + j)); cbn [b2n].
  - rewrite Nat.mul_1_l, Nat.add_comm, iter_plus. unfold W at 2. rewrite iter_evolve by exact Hm. fold E W. do 3 f_equal. rewrite pow_INR. change (INR 2) with 2%R. ring.
  - rewrite Nat.mul_0_l, Nat.add_0_r. reflexivity.
Qed.
Lemma dynamics_ok o t N : 1 <= qp_trotter o -> Hamiltonian (qp_nqb o) (qp_ham o) -> exists gs, get_dynamics_circ o t (qp_nqb o) N = Ok gs /\ applicable (qp_nqb o + N) gs /\
  forall ref, circ_act gs (history (qp_nqb o) N 0 (evolve (qp_trotter o) t (qp_ham o)) ref) == history (qp_nqb o) N N (evolve (qp_trotter o) t (qp_ham o)) ref.
Proof.
  intros Hm HH. set (n := qp_nqb o) in *. unfold get_dynamics_circ. cbv zeta. set (st := split_terms (qp_ham o) t).
  assert (ES : Csum (fun z => z) (fst st) = RtoC (ident_sum t (qp_ham o))). { unfold st. rewrite split_terms_eq. apply Csum_ids. exact (ham_real n _ HH). }
  rewrite ES. match goal with |- context [foreach _ ?f _] => set (body := f) end.
  assert (G : forall k, k <= N -> exists gs, foreach (seq 0 k) body [] = Ok gs /\ applicable (n + N) gs /\ forall ref, circ_act gs (history n N 0 (evolve (qp_trotter o) t (qp_ham o)) ref) == history n N k (evolve (qp_trotter o) t (qp_ham o)) ref).
  { induction k as [|k IH]; intros Hk; [exists []; split; [reflexivity|]; split; [apply applicable_nil|intros ref; apply seq_refl]|]. destruct IH as (gs & E & A & R); [lia|]. rewrite seq_S, foreach_app', E. cbn [bind foreach Nat.add]. unfold body.
    destruct (ctl_body n (n + k) (qp_trotter o) t (qp_ham o) Hm HH ltac:(lia)) as (g1 & E1 & A1 & R1). fold st in E1. rewrite E1. cbn [bind fst snd].
    unfold py_gate3c. assert (EZ : (mkC (-1) 0 * RtoC (ident_sum t (qp_ham o)) * RtoC (2 ^ k))%C = RtoC (- ident_sum t (qp_ham o) * 2 ^ k)%R) by (apply C_ext; cbn [Re Im Cmul RtoC]; ring). rewrite EZ. cbn [Re Im RtoC]. rewrite !Rltb_false by lra. cbn [orb]. unfold py_gate3, make_gate. rewrite Nat.eqb_refl. cbn [String.eqb Ascii.eqb Bool.eqb bind].
    eexists. split; [reflexivity|]. split.
    - apply applicable_app; [exact A|]. apply applicable_app; [apply gRt_applicable; lia|]. apply applicable_repeat, R1. lia.
    - intros ref. rewrite circ_act_app. eapply seq_trans; [apply circ_act_ext, R|]. apply stage_act_ok; assumption. }
  exact (G N (Nat.le_refl N)).
Qed.

(** ---- the inverse Fourier transform without swaps ---- *)
Lemma rev_ok n N : 1 <= N -> get_qft_circuit n (n + N - 1) "reverse" = Ok (circuit_adjoint (stages n N)).
Proof.
  intros HN. unfold get_qft_circuit. replace (n + N - 1 + 1 - n) with N by lia. cbv zeta. rewrite (stages_eq n N N 0 []) by lia. reflexivity.
Qed.
Lemma adjoint_app a b : circuit_adjoint (a ++ b) = (circuit_adjoint b ++ circuit_adjoint a)%list.
Proof. unfold circuit_adjoint. rewrite map_app, rev_app_distr. reflexivity. Qed.
Lemma half_le N : 2 * Nat.div N 2 <= N.
Proof. apply Nat.mul_div_le. lia. Qed.
Lemma rev_stages_act n N psi : circ_act (circuit_adjoint (stages n N)) psi == dft (-1) n N (fun I => psi (rv n N (Nat.div N 2) I)).
Proof.
  pose proof (gates_lib n N) as HL. unfold qft_gates in HL. apply Forall_app in HL. destruct HL as (_ & HL).
  assert (E : circ_act (swaps n N (Nat.div N 2)) psi = fun I => psi (rv n N (Nat.div N 2) I)) by (apply seq_eq; intros I; apply swaps_act, half_le).
  rewrite <- E. eapply seq_trans; [|apply qft_adjoint_act]. unfold qft_gates. rewrite adjoint_app, circ_act_app. apply circ_act_ext, seq_sym, circuit_adjoint_undoes, HL.
Qed.
Lemma stages_applicable k n N : n + N <= k -> applicable k (stages n N).
Proof.
  intros H. pose proof (qft_applicable k n N H) as (A & B & D). unfold qft_gates in *. apply Forall_app in A, B, D. repeat split; tauto.
Qed.

(** ---- the circuit ---- *)
Definition wave (N : nat) (o : qpe_options) (t : R) (x : nat) : state := Nat.iter x (evolve (qp_trotter o) t (qp_ham o)) (prepared (qp_Uprep o)).
Lemma circuit_ok o t N : 1 <= N -> 1 <= qp_trotter o -> Hamiltonian (qp_nqb o) (qp_ham o) -> Applicable (qp_nqb o) (qp_Uprep o) ->
  exists U q, qpe_circuit o t N = Ok U /\ Applicable (qp_nqb o + N) U /\ apply_circuit (new_computer (qp_nqb o + N)) U = Ok q /\ wf_computer q /\ nqubit q = qp_nqb o + N /\
  forall I, psi_of q I = (RtoC (/ 2 ^ N) * Csum (fun x => Ccis (- (2 * PI * (INR x * INR (val (qp_nqb o) N I)) / 2 ^ N)) * wave N o t x (put (qp_nqb o) N I 0)) (seq 0 (2 ^ N)))%C.
Proof.
  intros HN Hm HH HU. set (n := qp_nqb o) in *. unfold qpe_circuit. fold n. cbv zeta. unfold get_Uhad. replace (n + N - 1 + 1 - n) with N by lia. rewrite Uhad_ok. cbn [bind].
  destruct (dynamics_ok o t N Hm HH) as (gs & E & A & R). fold n in E, A, R. rewrite E. cbn [bind]. rewrite (rev_ok n N HN). cbn [bind].
  set (U := (map gHd (seq n N) ++ qp_Uprep o ++ gs ++ circuit_adjoint (stages n N))%list).
  assert (AU : Applicable (n + N) U).
  { unfold U. apply applicable_app; [|apply applicable_app; [|apply applicable_app]].
    - apply applicable_made; apply Forall_map, Forall_forall; intros j Hj; apply in_seq in Hj; [|split; cbn; lia]. exists "H"%string, j, j, 0%R. split; [reflexivity|]. unfold make_gate. rewrite Nat.eqb_refl. reflexivity.
    - destruct HU as (H1 & H2 & H3). repeat split; [exact H1|exact H2|]. eapply Forall_impl; [|exact H3]. intros g (G1 & G2). split; lia.
    - exact A.
    - apply applicable_adjoint, stages_applicable. lia. }
  destruct (run_prepared (n + N) U AU) as (q & EQ & W & NQ & PQ). exists U, q. split; [reflexivity|]. split; [exact AU|]. split; [exact EQ|]. split; [exact W|]. split; [exact NQ|]. intros I. rewrite (PQ I). unfold prepared, U. rewrite !circ_act_app.
  set (w := RtoC (rsqrt2 ^ N)).
  assert (E1 : circ_act (map gHd (seq n N)) (ket 0) = sscale w (over n N (fun _ => tt) (fun _ => ket 0))).
  { apply seq_eq. intros J. apply had_act. intros L q0 _ HB. unfold ket. destruct (Nat.eqb_spec L 0) as [->|]; [|reflexivity]. unfold bit in HB. rewrite Nat.bits_0 in HB. discriminate. }
  rewrite E1. set (ref := circ_act (qp_Uprep o) (ket 0)).
  assert (E2 : circ_act (qp_Uprep o) (sscale w (over n N (fun _ => tt) (fun _ => ket 0))) = sscale w (history n N 0 (evolve (qp_trotter o) t (qp_ham o)) ref)).
  { apply seq_eq. eapply seq_trans; [apply circ_act_scale|]. intros J. unfold sscale. rewrite (over_circ n N (fun _ => tt) (qp_Uprep o) (fun _ _ _ _ => eq_refl) (proj2 (proj2 HU)) (fun _ => ket 0) J). reflexivity. }
  rewrite E2. assert (E3 : circ_act gs (sscale w (history n N 0 (evolve (qp_trotter o) t (qp_ham o)) ref)) = sscale w (history n N N (evolve (qp_trotter o) t (qp_ham o)) ref)).
  { apply seq_eq. eapply seq_trans; [apply circ_act_scale|]. intros J. unfold sscale. now rewrite (R ref J). }
  rewrite E3, (rev_stages_act n N _ I). unfold dft. rewrite <- rsqrt2_pow. rewrite <- !Csum_mul_l. apply Csum_ext. intros x Hx. apply in_seq in Hx. unfold sscale, history, over. rewrite lval_rv, put_rv, val_put, put_put by lia. fold ref.
  unfold wave, prepared. fold ref. replace (/ 2 ^ N)%R with (rsqrt2 ^ N * rsqrt2 ^ N)%R; [|rewrite <- Rpow_mult_distr, rsqrt2_sq; rewrite <- pow_inv; f_equal; lra].
  unfold w. replace (RtoC (rsqrt2 ^ N * rsqrt2 ^ N)) with (RtoC (rsqrt2 ^ N) * RtoC (rsqrt2 ^ N))%C by (apply C_ext; cbn; ring).
  replace (-1 * (2 * PI * (INR x * INR (val n N I)) / 2 ^ N))%R with (- (2 * PI * (INR x * INR (val n N I)) / 2 ^ N))%R by ring. ring.
Qed.
