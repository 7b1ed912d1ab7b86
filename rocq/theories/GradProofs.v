(** The recursion of measure_gradient. *)
From Coq Require Import Reals String List Arith Bool Lia Lra FunctionalExtensionality.
From Verif Require Import CBase Result Bits Spec OpSpec GateModel ComputerModel ApplyProofs SafeProofs LibProofs SimProofs CircuitModel OperatorModel MeasureModel MeasureProofs SQSpec SQModel SQPoolModel PyModel PyApply ExpSpec AnsatzModel AnsatzProofs GradModel GradSpec GradCalc PropMeasure PropAnsatz.
Import ListNotations.
Local Open Scope nat_scope.

Lemma py_get_ok {A} (l : list A) i d : i < length l -> py_get l i = Ok (nth i l d).
Proof. intros H. unfold py_get. rewrite (nth_error_nth' l d H). reflexivity. Qed.
Lemma py_set_ok {A} (l : list A) i x : i < length l -> py_set l i x = Ok (list_set l i x).
Proof. intros H. unfold py_set. apply Nat.ltb_lt in H. now rewrite H. Qed.
Lemma list_set_nth {A} (l : list A) i x d : i < length l -> forall j, nth j (list_set l i x) d = if Nat.eqb j i then x else nth j l d.
Proof.
  revert i. induction l as [|y l IH]; intros i H j; [cbn [length] in H; lia|]. destruct i as [|i]; cbn [list_set]; destruct j as [|j]; try reflexivity. cbn [nth Nat.eqb]. apply IH. cbn [length] in H. lia.
Qed.
Lemma list_set_len {A} (l : list A) i x : length (list_set l i x) = length l.
Proof. revert i. induction l as [|y l IH]; intros [|i]; cbn [list_set length]; auto. Qed.
Lemma vdot_inner n (q q' : computer) : wf_computer q -> wf_computer q' -> nqubit q = n -> nqubit q' = n -> vdot (coeff q) (coeff q') = Ok (inner n (psi_of q) (psi_of q')).
Proof.
  intros W W' E E'. assert (L : length (coeff q) = 2 ^ n) by (rewrite <- E; apply W). assert (L' : length (coeff q') = 2 ^ n) by (rewrite <- E'; apply W'). unfold vdot. rewrite L, L', Nat.eqb_refl. now apply inner_amp.
Qed.

(** what is needed about the operator [top] with amplitude [t], whose generator is [A] *)
Record entry_ok (srt : sorter) (s : ucc) (n top : nat) (t : R) (A : state -> state) : Prop := {
  eo_two : two_level A;
  eo_K : exists e K, pool_item (pool s) top = Ok e /\ pool_K srt s top = Ok K /\ Forall (fun u => applicable n (snd u)) K /\ (forall psi, op_act K psi == A psi) /\
    exists U, undo_circuit srt s (snd e) K (RtoC t) = Ok U /\ applicable n U /\ forall psi, is_exp (RtoC (- t)) A psi (circ_act U psi) }.

Lemma grad_element_ok n sig q K A : wf_computer sig -> wf_computer q -> nqubit sig = n -> nqubit q = n -> Forall (fun u => applicable n (snd u)) K -> (forall psi, op_act K psi == A psi) ->
  grad_element sig q K = Ok (2 * Re (inner n (psi_of sig) (A (psi_of q))))%R.
Proof.
  intros W1 W2 N1 N2 HK HA. unfold grad_element. destruct (C18_apply_operator_partial q K W2) as (q' & E & W3 & N3 & P3); [rewrite N2; exact HK|]. rewrite E. cbn [bind].
  rewrite (vdot_inner n sig q') by (assumption || congruence). cbn [bind]. do 3 f_equal. apply inner_ext; [apply seq_refl|]. intros I. rewrite (P3 I). apply HA.
Qed.

Section Loop.
  Variables (srt : sorter) (s : ucc) (n : nat) (params : option (list C)) (ts : list R) (As : nat -> state -> state) (psi0 phi : state) (H : state -> state).
  Let M := length (tops s).
  Hypothesis Amps : amplitudes s params = map RtoC ts.
  Hypothesis Len : length ts = M.
  Hypothesis OK : forall k, k < M -> entry_ok srt s n (nth k (tops s) 0) (nth k ts 0%R) (As k).
  Definition lf : list (C * (state -> state)) := map (fun k => (RtoC (nth k ts 0%R), As k)) (seq 0 M).
  (** the value of the gradient element j *)
  Definition value (j : nat) (g : R) : Prop := exists chi w, exp_product (firstn (j + 1) lf) psi0 chi /\ exp_product (skipn (j + 1) lf) chi phi /\ exp_product (skipn (j + 1) lf) (As j chi) w /\ g = (2 * Re (inner n (H phi) w))%R.
  Record inv (k : nat) (st : computer * computer * qop * list R) : Prop := {
    in_sig : wf_computer (fst (fst (fst st))) /\ nqubit (fst (fst (fst st))) = n;
    in_psi : wf_computer (snd (fst (fst st))) /\ nqubit (snd (fst (fst st))) = n;
    in_chi : exp_product (firstn (k + 1) lf) psi0 (psi_of (snd (fst (fst st)))) /\ exp_product (skipn (k + 1) lf) (psi_of (snd (fst (fst st)))) phi;
    in_dual : forall b w, exp_product (skipn (k + 1) lf) b w -> inner n (psi_of (fst (fst (fst st)))) b = inner n (H phi) w;
    in_K : pool_K srt s (nth k (tops s) 0) = Ok (snd (fst st));
    in_len : length (snd st) = M;
    in_grads : forall j, k <= j < M -> value j (nth j (snd st) 0%R) }.
  Lemma lf_len : length lf = M.
  Proof. unfold lf. now rewrite map_length, seq_length. Qed.
  Lemma lf_nth k : k < M -> skipn k lf = (RtoC (nth k ts 0%R), As k) :: skipn (k + 1) lf.
  Proof.
    intros L. assert (G : forall (l : list (C * (state -> state))) k d, k < length l -> skipn k l = nth k l d :: skipn (k + 1) l).
    { induction l as [|x l IH]; intros j d Hj; [cbn [length] in Hj; lia|]. destruct j as [|j]; [reflexivity|]. cbn [skipn nth Nat.add]. apply IH. cbn [length] in Hj. lia. }
    rewrite (G lf k (C0, As 0)) by (rewrite lf_len; exact L). f_equal. unfold lf. rewrite (nth_indep _ (C0, As 0) ((fun k => (RtoC (nth k ts 0%R), As k)) 0)) by (rewrite map_length, seq_length; exact L). rewrite (map_nth (fun k => (RtoC (nth k ts 0%R), As k))). now rewrite seq_nth.
  Qed.
  Lemma lf_first k : k < M -> firstn (k + 1) lf = (firstn k lf ++ [(RtoC (nth k ts 0%R), As k)])%list.
  Proof.
    intros L. pose proof (lf_nth k L) as E. assert (G : forall (l : list (C * (state -> state))) k x r, skipn k l = x :: r -> firstn (k + 1) l = (firstn k l ++ [x])%list).
    { induction l as [|y l IH]; intros j x r Hx; [destruct j; discriminate|]. destruct j as [|j]; [injection Hx as <- <-; reflexivity|]. cbn [firstn app Nat.add]. f_equal. apply (IH j x r). exact Hx. }
    exact (G _ _ _ _ E).
  Qed.
  Lemma lf_real : Forall real_factor lf.
  Proof. unfold lf. apply Forall_map, Forall_forall. intros k Ik. apply in_seq in Ik. split; [reflexivity|]. apply (OK k). lia. Qed.
  Lemma real_skip k : Forall real_factor (skipn k lf).
  Proof. pose proof lf_real as G. rewrite Forall_forall in *. intros x Ix. apply G. rewrite <- (firstn_skipn k lf). apply in_or_app. now right. Qed.
  Definition body (mu : nat) (st : computer * computer * qop * list R) : res (computer * computer * qop * list R) :=
    let '(qc_sig, qc_psi, Kprev, grads) := st in
    do tamp <- py_get (amplitudes s params) (mu + 1);
    do top <- py_get (tops s) mu;
    do K <- pool_K srt s top;
    do top' <- py_get (tops s) (mu + 1);
    do e <- pool_item (pool s) top';
    do Umu <- undo_circuit srt s (snd e) Kprev tamp;
    do qc_sig <- apply_circuit qc_sig Umu;
    do qc_psi <- apply_circuit qc_psi Umu;
    do g <- grad_element qc_sig qc_psi K;
    do grads <- py_set grads mu g;
    Ok (qc_sig, qc_psi, K, grads).
  Lemma body_ok k st : k + 1 < M -> inv (k + 1) st -> exists st', body k st = Ok st' /\ inv k st'.
  Proof.
    intros L I. destruct st as (((sig, psi), Kp), gs). destruct I as [(W1 & N1) (W2 & N2) (C1 & C2) D IK IL IG]. cbn [fst snd] in *. unfold body.
    rewrite Amps, (py_get_ok _ (k + 1) (RtoC 0)) by (rewrite map_length; lia). rewrite map_nth. cbn [bind].
    rewrite (py_get_ok _ k 0) by exact (Nat.lt_trans _ _ _ (Nat.lt_add_pos_r 1 k Nat.lt_0_1) L). cbn [bind].
    destruct (OK k ltac:(lia)) as [T0 (e0 & K0 & P0 & EK0 & A0 & X0 & _)]. rewrite EK0. cbn [bind].
    rewrite (py_get_ok _ (k + 1) 0) by exact L. cbn [bind].
    destruct (OK (k + 1) L) as [T1 (e1 & K1 & P1 & EK1 & A1 & X1 & U & EU & AU & HU)]. rewrite P1. cbn [bind].
    assert (K1 = Kp) by congruence. subst K1. rewrite EU. cbn [bind].
    destruct (sim_apply sig U W1) as (sig' & Es & Ws & Ns & Ps); [rewrite N1; exact AU|]. destruct (sim_apply psi U W2) as (psi' & Ep & Wp & Np & Pp); [rewrite N2; exact AU|].
    rewrite Es, Ep. cbn [bind]. rewrite (grad_element_ok n sig' psi' K0 (As k)) by (assumption || congruence). cbn [bind].
    rewrite py_set_ok by (rewrite IL; lia). cbn [bind]. eexists. split; [reflexivity|].
    set (A := As (k + 1)) in *. set (t := nth (k + 1) ts 0%R) in *. fold (psi_of sig') in Ps. fold (psi_of sig) in Ps. fold (psi_of psi') in Pp. fold (psi_of psi) in Pp. apply state_eq in Ps, Pp.
    replace (k + 1 + 1) with (k + 2) in * by lia.
    assert (Fk : firstn (k + 2) lf = (firstn (k + 1) lf ++ [(RtoC t, A)])%list) by (replace (k + 2) with (k + 1 + 1) by lia; now apply lf_first).
    assert (Sk : skipn (k + 1) lf = (RtoC t, A) :: skipn (k + 2) lf) by (replace (k + 2) with (k + 1 + 1) by lia; now apply lf_nth).
    assert (Chi : exp_product (firstn (k + 1) lf) psi0 (psi_of psi') /\ is_exp (RtoC t) A (psi_of psi') (psi_of psi)).
    { rewrite Fk in C1. apply exp_product_app in C1. destruct C1 as (xi & B1 & B2). cbn [exp_product] in B2. destruct B2 as (chi & B2 & B3). apply state_eq in B3. subst chi.
      assert (E : psi_of psi' = xi) by (rewrite Pp; apply (rexp_back A t xi (psi_of psi)); [exact T1|exact B2|apply HU]). rewrite E. split; assumption. }
    destruct Chi as (Chi1 & Chi2).
    assert (Dual : forall b w, exp_product (skipn (k + 1) lf) b w -> inner n (psi_of sig') b = inner n (H phi) w).
    { intros b w Hb. rewrite Sk in Hb. cbn [exp_product] in Hb. destruct Hb as (b' & B1 & B2). rewrite <- (D b' w B2). rewrite Ps.
      assert (E : circ_act U b' = b) by (apply (rexp_back A t b b'); [exact T1|exact B1|apply HU]). rewrite <- E at 1. apply circ_preserves_inner; apply AU. }
    assert (C2' : exp_product (skipn (k + 1) lf) (psi_of psi') phi) by (rewrite Sk; cbn [exp_product]; exists (psi_of psi); split; assumption).
    constructor; cbn [fst snd].
    - split; congruence.
    - split; congruence.
    - split; assumption.
    - exact Dual.
    - exact EK0.
    - now rewrite list_set_len.
    - intros j Hj. rewrite list_set_nth by (rewrite IL; lia). destruct (Nat.eqb_spec j k) as [->|Nj]; [|apply IG; lia].
      destruct (product_exists _ (real_skip (k + 1)) (As k (psi_of psi'))) as (w & Hw). exists (psi_of psi'), w. split; [exact Chi1|]. split; [exact C2'|]. split; [exact Hw|]. now rewrite (Dual _ w Hw).
  Qed.
  Lemma loop_ok k : forall st, k < M -> inv k st -> exists st', foreach (rev (seq 0 k)) body st = Ok st' /\ inv 0 st'.
  Proof.
    induction k as [|k IH]; intros st L I; [exists st; split; [reflexivity|exact I]|]. rewrite seq_S, rev_app_distr. cbn [rev app foreach Nat.add]. replace (S k) with (k + 1) in I by lia. destruct (body_ok k st ltac:(lia) I) as (st1 & E & I1). rewrite E. cbn [bind]. apply IH; [lia|exact I1].
  Qed.
End Loop.

Lemma replace_map {X} (f : nat -> X -> C * (state -> state)) (ts : list X) k x d : k < length ts -> forall i,
  map (fun j => f (i + j) (nth j (replace ts k x) d)) (seq 0 (length ts)) =
  (firstn k (map (fun j => f (i + j) (nth j ts d)) (seq 0 (length ts))) ++ f (i + k) x :: skipn (k + 1) (map (fun j => f (i + j) (nth j ts d)) (seq 0 (length ts))))%list.
Proof.
  revert k. induction ts as [|t ts IH]; intros k L i; [cbn [length] in L; lia|]. cbn [length seq map]. rewrite <- seq_shift, !map_map. destruct k as [|k]; cbn [replace nth firstn skipn app Nat.add].
  - rewrite Nat.add_0_r. reflexivity.
  - f_equal. cbn [length] in L. specialize (IH k ltac:(lia) (S i)).
    rewrite (map_ext (fun x0 => f (i + S x0) (nth x0 (replace ts k x) d)) (fun j => f (S i + j) (nth j (replace ts k x) d))) by (intros j; now rewrite Nat.add_succ_r).
    rewrite (map_ext (fun x0 => f (i + S x0) (nth x0 ts d)) (fun j => f (S i + j) (nth j ts d))) by (intros j; now rewrite Nat.add_succ_r). rewrite IH. replace (i + S k) with (S i + k) by lia. reflexivity.
Qed.

(** the whole function, given the circuit of the ansatz *)
Theorem gradient_ok srt sort s n params ts As U : let M := length (tops s) in
  amplitudes s params = map RtoC ts -> length ts = M -> length (tamps s) = M -> 0 < M ->
  (forall k, k < M -> entry_ok srt s n (nth k (tops s) 0) (nth k ts 0%R) (As k)) ->
  wf_computer (init s) -> nqubit (init s) = n -> Forall (fun u => applicable n (snd u)) (ham s) -> self_adjoint n (op_act (ham s)) ->
  build_Uvqc srt sort s params = Ok (Uprep s ++ U)%list -> applicable n (Uprep s) -> applicable n U ->
  (let psi := circ_act (Uprep s) (psi_of (init s)) in exp_product (map (fun k => (RtoC (nth k ts 0%R), As k)) (seq 0 M)) psi (circ_act U psi)) ->
  exists grads, measure_gradient srt sort s params = Ok grads /\ length grads = M /\
    forall k, k < M -> slope n (op_act (ham s)) (fun x => map (fun j => (RtoC (nth j (replace ts k x) 0%R), As j)) (seq 0 M)) (circ_act (Uprep s) (psi_of (init s))) (nth k ts 0%R) (nth k grads 0%R).
Proof.
  intros M Amps Len LT Pos OK W N HH SA EB AP AU HU. unfold measure_gradient. rewrite EB. cbn [bind].
  destruct (sim_apply (init s) (Uprep s ++ U) W) as (psi & Ep & Wp & Np & Pp); [rewrite N; now apply applicable_app|]. rewrite Ep. cbn [bind]. fold (psi_of psi) in Pp. fold (psi_of (init s)) in Pp.
  set (psi0 := circ_act (Uprep s) (psi_of (init s))). rewrite circ_act_app in Pp. fold psi0 in Pp. apply state_eq in Pp.
  destruct (C18_apply_operator_partial psi (ham s) Wp) as (sig & Es & Ws & Ns & Ps); [rewrite Np, N; exact HH|]. rewrite Es. cbn [bind]. apply state_eq in Ps.
  cbv zeta. rewrite LT. destruct (Nat.eqb_spec M 0) as [|_]; [lia|]. rewrite (py_get_ok _ (M - 1) 0) by (fold M; lia). cbn [bind].
  destruct (OK (M - 1) ltac:(lia)) as [T1 (e1 & K1 & P1 & EK1 & A1 & X1 & _)]. rewrite EK1. cbn [bind].
  rewrite (grad_element_ok n sig psi K1 (As (M - 1))) by (assumption || congruence). cbn [bind].
  rewrite py_set_ok by (rewrite repeat_length; lia). cbn [bind].
  set (g := (2 * Re (inner n (psi_of sig) (As (M - 1)%nat (psi_of psi))))%R). set (l := lf s ts As).
  assert (LL : length l = M) by apply lf_len.
  assert (Fi : firstn (M - 1 + 1) l = l) by (rewrite Nat.sub_add by lia; rewrite <- LL; apply firstn_all). assert (Sk : skipn (M - 1 + 1) l = []) by (rewrite Nat.sub_add by lia; rewrite <- LL; apply skipn_all).
  assert (I0 : inv srt s n ts As psi0 (psi_of psi) (op_act (ham s)) (M - 1) (sig, psi, K1, list_set (repeat 0%R M) (M - 1) g)).
  { constructor; cbn [fst snd]; fold l; rewrite ?Fi, ?Sk.
    - split; congruence.
    - split; congruence.
    - split; [rewrite Pp; exact HU|intros J; reflexivity].
    - intros b w Hb. apply state_eq in Hb. subst w. now rewrite Ps.
    - exact EK1.
    - rewrite list_set_len. apply repeat_length.
    - intros j Hj. assert (j = M - 1) by (fold M in Hj; lia). subst j. rewrite list_set_nth by (rewrite repeat_length; lia). rewrite Nat.eqb_refl. unfold value. fold l. rewrite Fi, Sk. exists (psi_of psi), (As (M - 1) (psi_of psi)).
      split; [rewrite Pp; exact HU|]. split; [intros J; reflexivity|]. split; [intros J; reflexivity|]. unfold g. now rewrite Ps. }
  destruct (loop_ok srt s n params ts As psi0 (psi_of psi) (op_act (ham s)) Amps Len OK (M - 1) _ ltac:(fold M; lia) I0) as (st & E & [_ _ _ _ _ IL IG]).
  fold M in E, IL, IG. change (foreach (rev (seq 0 (M - 1))) (body srt s params) (sig, psi, K1, list_set (repeat 0%R M) (M - 1) g) = Ok st) in E.
  exists (snd st). split; [|split; [exact IL|]].
  - unfold body in E. rewrite E. reflexivity.
  - intros k Hk. destruct (IG k ltac:(lia)) as (chi & w & V1 & V2 & V3 & V4). rewrite V4.
    pose proof (lf_real srt s n ts As Len OK) as RF. fold l in V1, V2, V3, RF. unfold lf in l. fold M in l.
    assert (RF' : Forall real_factor (firstn k l) /\ Forall real_factor (skipn (k + 1) l)).
    { rewrite Forall_forall in RF. split; apply Forall_forall; intros x Ix; apply RF; [rewrite <- (firstn_skipn k l)|rewrite <- (firstn_skipn (k + 1) l)]; apply in_or_app; [now left|now right]. }
    assert (F1 : firstn (k + 1) l = (firstn k l ++ [(RtoC (nth k ts 0%R), As k)])%list) by (apply (lf_first s ts As Len k); exact Hk).
    rewrite F1 in V1. pose proof (energy_slope n (ham s) (firstn k l) (As k) (skipn (k + 1) l) psi0 (nth k ts 0%R) chi (psi_of psi) w (proj1 RF') (eo_two _ _ _ _ _ _ (OK k Hk)) (proj2 RF') SA V1 V2 V3) as SL.
    assert (EL : (fun x => map (fun j => (RtoC (nth j (replace ts k x) 0%R), As j)) (seq 0 M)) = (fun x => firstn k l ++ (RtoC x, As k) :: skipn (k + 1) l)%list).
    { extensionality x. pose proof (replace_map (fun j t => (RtoC t, As j)) ts k x 0%R ltac:(lia) 0) as R. cbn [Nat.add] in R. rewrite Len in R. exact R. }
    rewrite EL. exact SL.
Qed.
