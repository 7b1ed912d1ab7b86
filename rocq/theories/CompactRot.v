(** Multi-qubit-controlled rotation by alternating Ry and (anti)controlled-NOT gates. *)
From Coq Require Import Reals String List Arith Bool Lia Lra.
From Verif Require Import CBase Result Bits Spec GateModel ComputerModel SafeProofs GateProofs LibProofs CircuitModel PyModel GateEval ThreeQubit ExpCircuit CompactModel.
Import ListNotations.
Local Open Scope nat_scope.

(** ---- gates ---- *)
Definition gCN (t c : nat) : gate := mkGate "CNOT" t c m_cX None.
Definition gaCN (t c : nat) : gate := mkGate "aCNOT" t c m_acX None.
Definition gcZ (t c : nat) : gate := mkGate "cZ" t c m_cZ None.
Definition gRy (t : nat) (x : R) : gate := let p := normalize_angle x (4 * PI) in mkGate "Ry" t t (m_Ry p) (Some (p, true)).
Lemma py_CN t c : t <> c -> py_gate2 "CNOT" t c = Ok (gCN t c).
Proof. intros H. unfold py_gate2, make_gate. rewrite (neq_eqb _ _ H). reflexivity. Qed.
Lemma py_aCN t c : t <> c -> py_gate2 "aCNOT" t c = Ok (gaCN t c).
Proof. intros H. unfold py_gate2, make_gate. rewrite (neq_eqb _ _ H). reflexivity. Qed.
Lemma py_cZ t c : t <> c -> py_gate2 "cZ" t c = Ok (gcZ t c).
Proof. intros H. unfold py_gate2, make_gate. rewrite (neq_eqb _ _ H). reflexivity. Qed.
Lemma py_Ry t x : py_gate3c "Ry" t t (RtoC x) = Ok (gRy t x).
Proof. unfold py_gate3c. cbn [Im Re RtoC]. destruct (Req_EM_T 0 0); [|contradiction]. unfold make_gate. rewrite Nat.eqb_refl. reflexivity. Qed.
Lemma CN_act t c psi I : t <> c -> gate_act (gCN t c) psi I = psi (if bit I c then flip I t else I).
Proof. intros H. unfold gCN. rewrite act_2 by exact H. apply ev_cX, H. Qed.
Lemma aCN_act t c psi I : t <> c -> gate_act (gaCN t c) psi I = psi (if bit I c then I else flip I t).
Proof. intros H. unfold gaCN. rewrite act_2 by exact H. apply ev_acX, H. Qed.
Lemma cZ_act t c psi I : t <> c -> gate_act (gcZ t c) psi I = (sgn (bit I c && bit I t) * psi I)%C.
Proof. intros H. unfold gcZ. rewrite act_2 by exact H. apply ev_cZ. Qed.
Lemma Ry_act t x psi I : gate_act (gRy t x) psi I = (RtoC (cos (x / 2)) * psi I + RtoC (if bit I t then sin (x / 2) else - sin (x / 2)) * psi (flip I t))%C.
Proof.
  unfold gRy. cbv zeta. rewrite act_1, m_Ry_norm. unfold act1. rewrite flip_upd. assert (H : (x / 2 = 0.5 * x)%R) by lra. rewrite H.
  destruct (bit I t) eqn:E; cbn [negb b2n].
  - rewrite (upd_id' I t true E). unfold m_Ry. cbn. ring.
  - rewrite (upd_id' I t false E). unfold m_Ry. cbn. apply C_ext; cbn; ring.
Qed.

(** ---- rotations and flips of one qubit, conditioned on other qubits ---- *)
Inductive op := OR (x : R) | ON (open : bool) (c : nat).
Definition gate_of (t : nat) (o : op) : gate := match o with OR x => gRy t x | ON true c => gaCN t c | ON false c => gCN t c end.
Definition op_ok (t : nat) (o : op) : Prop := match o with OR _ => True | ON _ c => t <> c end.
(** rotation by a after p flips *)
Definition rotx (t : nat) (a : R) (p : bool) (psi : state) : state := fun I =>
  let J := if p then flip I t else I in
  (RtoC (cos a) * psi J + RtoC (if bit I t then sin a else - sin a) * psi (flip J t))%C.
Definition step (e : nat -> bool) (o : op) (s : R * bool) : R * bool :=
  match o with
  | OR x => ((fst s + x / 2)%R, snd s)
  | ON open c => if xorb open (e c) then ((- fst s)%R, negb (snd s)) else s
  end.
Definition run (e : nat -> bool) (ops : list op) (s : R * bool) : R * bool := fold_left (fun s o => step e o s) ops s.
Lemma rotx_0 t psi I : rotx t 0 false psi I = psi I.
Proof. unfold rotx. rewrite cos_0, sin_0. destruct (bit I t); apply C_ext; cbn; ring. Qed.
Lemma rot_rot t a x p psi I : (RtoC (cos x) * rotx t a p psi I + RtoC (if bit I t then sin x else - sin x) * rotx t a p psi (flip I t))%C = rotx t (a + x) p psi I.
Proof.
  unfold rotx. rewrite bit_flip, Nat.eqb_refl, cos_plus, sin_plus.
  assert (FF : flip (if p then flip (flip I t) t else flip I t) t = (if p then flip I t else I)) by (destruct p; rewrite ?flip_flip; reflexivity). rewrite FF.
  assert (F2 : (if p then flip (flip I t) t else flip I t) = flip (if p then flip I t else I) t) by (destruct p; reflexivity). rewrite F2.
  set (u := psi (if p then flip I t else I)). set (v := psi (flip _ t)). destruct (bit I t); cbn [negb]; apply C_ext; cbn; ring.
Qed.
Lemma flip_rot t a p psi I : rotx t a p psi (flip I t) = rotx t (- a) (negb p) psi I.
Proof.
  unfold rotx. rewrite bit_flip, Nat.eqb_refl, cos_neg, sin_neg. destruct p; cbn [negb]; rewrite ?flip_flip; destruct (bit I t); cbn [negb]; apply C_ext; cbn; ring.
Qed.
Definition env (I : nat) : nat -> bool := bit I.
Lemma run_flip t ops I s : Forall (op_ok t) ops -> run (bit (flip I t)) ops s = run (bit I) ops s.
Proof.
  intros F. revert s. induction F as [|o r Ho _ IH]; intros s; [reflexivity|]. cbn [run fold_left]. fold (run (bit (flip I t)) r (step (bit (flip I t)) o s)). rewrite IH. unfold run. f_equal.
  destruct o as [x|op c]; [reflexivity|]. cbn [step op_ok] in *. rewrite bit_flip. destruct (Nat.eqb_spec c t) as [E|]; [congruence|reflexivity].
Qed.
Lemma ops_act t ops : Forall (op_ok t) ops -> forall psi I, circ_act (map (gate_of t) ops) psi I = rotx t (fst (run (bit I) ops (0%R, false))) (snd (run (bit I) ops (0%R, false))) psi I.
Proof.
  intros F psi. induction ops as [|o r IH] using rev_ind; intros I; [cbn [map run fold_left fst snd]; now rewrite rotx_0|].
  apply Forall_app in F. destruct F as (Fr & Fo). inversion Fo as [|? ? Ho _]; subst. specialize (IH Fr). rewrite map_app, circ_act_app. cbn [map]. unfold circ_act at 1. cbn [fold_left]. unfold run. rewrite fold_left_app. cbn [fold_left].
  change (fold_left (fun s o0 => step (bit I) o0 s) r (0%R, false)) with (run (bit I) r (0%R, false)). pose proof (run_flip t r I (0%R, false) Fr) as RF.
  destruct o as [x|[|] c]; cbn [gate_of step op_ok xorb] in *.
  - rewrite Ry_act, !IH, RF. destruct (run (bit I) r (0%R, false)) as (a, p). cbn [fst snd]. apply rot_rot.
  - rewrite aCN_act by exact Ho. destruct (bit I c); cbn [negb].
    + apply IH.
    + rewrite IH, RF. destruct (run (bit I) r (0%R, false)) as (a, p). cbn [fst snd]. apply flip_rot.
  - rewrite CN_act by exact Ho. destruct (bit I c); cbn [negb].
    + rewrite IH, RF. destruct (run (bit I) r (0%R, false)) as (a, p). cbn [fst snd]. apply flip_rot.
    + apply IH.
Qed.

(** ---- the recursive sequence ---- *)
Definition ctl := (bool * nat)%type.
Definition ON' (k : ctl) : op := ON (fst k) (snd k).
Fixpoint G (phi : R) (l : list ctl) : list op :=
  match l with
  | [] => []
  | k :: r => match r with [] => [OR phi; ON' k; OR (- phi)] | _ => G phi r ++ [ON' k] ++ G phi r end
  end.
Definition fires (e : nat -> bool) (k : ctl) : bool := xorb (fst k) (e (snd k)).
Lemma run_app e a b s : run e (a ++ b) s = run e b (run e a s).
Proof. apply fold_left_app. Qed.
Lemma run_from e ops : forall a p, run e ops (a, p) = let s := run e ops (0%R, false) in ((fst s + if snd s then - a else a)%R, xorb (snd s) p).
Proof.
  induction ops as [|o r IH] using rev_ind; intros a p; [cbn [run fold_left fst snd]; cbv zeta; cbn [fst snd]; f_equal; [ring | destruct p; reflexivity]|]. rewrite !run_app, IH. cbv zeta. destruct (run e r (0%R, false)) as (b, q). cbn [fst snd run fold_left].
  destruct o as [x|op c]; cbn [step fst snd]; [f_equal; destruct q; lra|]. destruct (xorb op (e c)); cbn [fst snd]; [|reflexivity]. destruct q, p; cbn [xorb negb]; f_equal; lra.
Qed.
Lemma G_run e phi r : forall k, run e (G phi (k :: r)) (0%R, false) = ((if forallb (fires e) (k :: r) then - (2 ^ length r * phi) else 0)%R, fires e k).
Proof.
  induction r as [|k' r IH]; intros k.
  - cbn [G length pow]. unfold run. cbn [fold_left step ON' fst snd]. unfold fires, forallb. destruct (xorb (fst k) (e (snd k))); cbn [negb andb step fst snd]; f_equal; lra.
  - change (G phi (k :: k' :: r)) with (G phi (k' :: r) ++ [ON' k] ++ G phi (k' :: r)). rewrite !run_app, IH. set (g := (if forallb (fires e) (k' :: r) then _ else _)%R).
    unfold run at 2. cbn [fold_left step ON' fst snd]. change (xorb (fst k) (e (snd k))) with (fires e k).
    destruct (fires e k) eqn:Ek; rewrite run_from, IH; fold g; cbv zeta; cbn [fst snd]; cbn [forallb]; rewrite Ek; cbn [andb].
    + destruct (fires e k') eqn:Ek'; cbn [negb xorb andb]; f_equal; unfold g; cbn [forallb]; rewrite Ek'; cbn [andb]; [|lra]. destruct (forallb (fires e) r); cbn [length pow]; lra.
    + destruct (fires e k') eqn:Ek'; cbn [xorb]; f_equal; [lra|]. unfold g. cbn [forallb]. rewrite Ek'. cbn [andb]. lra.
Qed.
Definition mcRy_ops (phi : R) (k : ctl) (r : list ctl) : list op := G phi (k :: r) ++ [ON' k].
Lemma mcRy_run e phi k r : run e (mcRy_ops phi k r) (0%R, false) = ((if forallb (fires e) (k :: r) then 2 ^ length r * phi else 0)%R, false).
Proof.
  unfold mcRy_ops. rewrite run_app, G_run. unfold run. cbn [fold_left step ON' fst snd]. change (xorb (fst k) (e (snd k))) with (fires e k).
  destruct (fires e k) eqn:Ek; cbn [forallb negb]; rewrite Ek; cbn [andb]; f_equal. destruct (forallb (fires e) r); lra.
Qed.
Lemma G_ok t phi r : forall k, Forall (fun k => t <> snd k) (k :: r) -> Forall (op_ok t) (G phi (k :: r)).
Proof.
  induction r as [|k' r IH]; intros k F; inversion F as [|? ? Hk Fr]; subst.
  - cbn [G]. repeat (constructor; [exact I || exact Hk|]). constructor.
  - change (G phi (k :: k' :: r)) with (G phi (k' :: r) ++ [ON' k] ++ G phi (k' :: r)). apply Forall_app. split; [now apply IH|]. constructor; [exact Hk | now apply IH].
Qed.
Lemma mcRy_act t phi k r psi I : Forall (fun k => t <> snd k) (k :: r) ->
  circ_act (map (gate_of t) (mcRy_ops phi k r)) psi I =
  if forallb (fires (bit I)) (k :: r) then (RtoC (cos (2 ^ length r * phi)) * psi I + RtoC (if bit I t then sin (2 ^ length r * phi) else - sin (2 ^ length r * phi)) * psi (flip I t))%C else psi I.
Proof.
  intros F. rewrite ops_act; [|apply Forall_app; split; [now apply G_ok | inversion F; subst; constructor; [assumption|constructor]]]. rewrite mcRy_run. cbn [fst snd].
  destruct (forallb _ _); [reflexivity | apply rotx_0].
Qed.

(** ---- the loop of the code produces that sequence ---- *)
Fixpoint pick (l : list ctl) (m : nat) : list op :=
  match l with [] => [] | k :: r => if Nat.eqb (m mod 2 ^ length r) 0 then [ON' k] else pick r m end.
Definition round (phi : R) (l : list ctl) (i : nat) : list op := OR (if Nat.even i then phi else - phi) :: pick l (i + 1).
Lemma mod_shift a n m : n <= m -> (2 ^ m + a) mod 2 ^ n = a mod 2 ^ n.
Proof.
  intros L. replace (2 ^ m) with (2 ^ (m - n) * 2 ^ n) by (rewrite <- Nat.pow_add_r; f_equal; lia). rewrite Nat.add_comm. apply Nat.mod_add. apply Nat.pow_nonzero. lia.
Qed.
Lemma pick_shift l m : forall n, length l <= S n -> pick l (2 ^ n + m) = pick l m.
Proof.
  induction l as [|k r IH]; intros n L; [reflexivity|]. cbn [pick length] in *. rewrite mod_shift by lia. rewrite IH by lia. reflexivity.
Qed.
Lemma rounds phi r : forall k, flat_map (round phi (k :: r)) (seq 0 (2 ^ length (k :: r))) = mcRy_ops phi k r.
Proof.
  induction r as [|k' r IH]; intros k; [reflexivity|]. specialize (IH k'). set (l' := k' :: r) in *. set (N := 2 ^ length l') in *.
  assert (P : 2 <= N) by (unfold N, l'; cbn [length Nat.pow]; pose proof (pow2_pos (length r)); lia).
  assert (Half : flat_map (round phi (k :: l')) (seq 0 N) = G phi l' ++ [ON' k]).
  { replace N with (N - 1 + 1) in IH by lia. replace N with (N - 1 + 1) by lia. rewrite seq_app, flat_map_app in *. cbn [seq flat_map Nat.add] in *. rewrite app_nil_r in *.
    assert (Last : round phi l' (N - 1) = [OR (if Nat.even (N - 1) then phi else - phi)] ++ [ON' k']).
    { unfold round, l'. cbn [pick app]. replace (N - 1 + 1) with N by lia. replace (N mod 2 ^ length r) with 0; [reflexivity|].
      unfold N, l'. cbn [length]. rewrite Nat.pow_succ_r'. symmetry. apply Nat.mod_mul. apply Nat.pow_nonzero. lia. }
    rewrite Last in IH. unfold mcRy_ops in IH. rewrite app_assoc in IH. apply app_inv_tail in IH. fold l' in IH. rewrite <- IH.
    assert (Last2 : round phi (k :: l') (N - 1) = [OR (if Nat.even (N - 1) then phi else - phi)] ++ [ON' k]).
    { unfold round. cbn [pick app]. replace (N - 1 + 1) with N by lia. fold N. rewrite Nat.mod_same by lia. reflexivity. }
    rewrite Last2, app_assoc. f_equal. f_equal. rewrite !flat_map_concat_map. f_equal. apply map_ext_in. intros i Ii. apply in_seq in Ii. unfold round. f_equal. change (pick (k :: l') (i + 1)) with (if Nat.eqb ((i + 1) mod N) 0 then [ON' k] else pick l' (i + 1)).
    rewrite Nat.mod_small by lia. destruct (Nat.eqb_spec (i + 1) 0); [lia|reflexivity]. }
  replace (2 ^ length (k :: l')) with (N + N) by (cbn [length Nat.pow]; fold N; lia). rewrite seq_app, flat_map_app, Half. rewrite Nat.add_0_l.
  assert (Second : flat_map (round phi (k :: l')) (seq N N) = flat_map (round phi (k :: l')) (seq 0 N)).
  { replace (seq N N) with (map (fun i => N + i) (seq 0 N)).
    - rewrite flat_map_concat_map, map_map, flat_map_concat_map. f_equal. apply map_ext. intros i. unfold round. f_equal.
      + unfold N, l'. cbn [length]. rewrite Nat.pow_succ_r', Nat.even_add, Nat.even_mul. change (Nat.even 2) with true. cbn [orb].
        destruct (Nat.even i); reflexivity.
      + replace (N + i + 1) with (2 ^ length l' + (i + 1)) by (unfold N; lia). apply pick_shift. cbn [length]. lia.
    - generalize N at 2 4 as n. intros n. replace (seq N n) with (seq (N + 0) n) by (f_equal; lia). generalize 0. induction n as [|n IHn]; intros s; [reflexivity|]. cbn [seq map]. f_equal. rewrite IHn. f_equal. lia. }
  rewrite Second, Half. unfold mcRy_ops. change (G phi (k :: l')) with (G phi l' ++ [ON' k] ++ G phi l'). rewrite <- !app_assoc. reflexivity.
Qed.
Definition kind (gsd : bool) (c : nat) : ctl := (negb gsd, c).
Lemma add_rest num i t gsd cs : forall j circ, num = 2 ^ (S j + length cs) -> (i + 1) mod (num / 2) <> 0 -> i <> num - 1 -> Forall (fun c => t <> c) cs ->
  add_control num i (S j) t gsd cs circ = Ok (circ ++ map (gate_of t) (pick (map (kind gsd) cs) (i + 1)))%list.
Proof.
  induction cs as [|c r IH]; intros j circ En Nz Nl F; [cbn; now rewrite app_nil_r|]. inversion F as [|? ? Hc Fr]; subst. cbn [add_control map pick]. rewrite map_length.
  replace (2 ^ (S j + length (c :: r)) / 2 ^ (S j + 1)) with (2 ^ length r).
  2: { cbn [length]. replace (S j + S (length r)) with (length r + (S j + 1)) by lia. rewrite Nat.pow_add_r. symmetry. apply Nat.div_mul. apply Nat.pow_nonzero. lia. }
  destruct (Nat.eqb ((i + 1) mod 2 ^ length r) 0).
  - destruct (Nat.eqb_spec ((i + 1) mod (2 ^ (S j + length (c :: r)) / 2)) 0); [contradiction|]. destruct (Nat.eqb_spec i (2 ^ (S j + length (c :: r)) - 1)); [contradiction|]. cbn [orb].
    unfold add_gate. destruct gsd; [rewrite py_CN by exact Hc | rewrite py_aCN by exact Hc]; reflexivity.
  - apply IH; try assumption. f_equal. cbn [length]. lia.
Qed.
Lemma add_all num i t gsd c cs circ : num = 2 ^ length (c :: cs) -> i < num -> Forall (fun c => t <> c) (c :: cs) ->
  add_control num i 0 t gsd (c :: cs) circ = Ok (circ ++ map (gate_of t) (pick ((false, c) :: map (kind gsd) cs) (i + 1)))%list.
Proof.
  intros En Li F. inversion F as [|? ? Hc Fr]; subst. cbn [add_control pick]. rewrite map_length. change (0 + 1) with 1. rewrite Nat.pow_1_r.
  assert (D : 2 ^ length (c :: cs) / 2 = 2 ^ length cs) by (cbn [length]; rewrite Nat.pow_succ_r', Nat.mul_comm; apply Nat.div_mul; lia). rewrite D.
  destruct (Nat.eqb_spec ((i + 1) mod 2 ^ length cs) 0) as [E|N].
  - cbn [orb]. unfold add_gate. rewrite py_CN by exact Hc. reflexivity.
  - apply add_rest; try assumption; [reflexivity | now rewrite D|]. intros ->. apply N. replace (2 ^ length (c :: cs) - 1 + 1) with (2 * 2 ^ length cs) by (cbn [length] in *; rewrite Nat.pow_succ_r' in *; lia).
    apply Nat.mod_mul. apply Nat.pow_nonzero. lia.
Qed.
Lemma foreach_append {A B} (f : A -> list B) (body : A -> list B -> res (list B)) l : (forall x s, In x l -> body x s = Ok (s ++ f x)%list) -> forall s, foreach l body s = Ok (s ++ flat_map f l)%list.
Proof.
  induction l as [|x r IH]; intros H s; cbn [foreach flat_map]; [now rewrite app_nil_r|]. rewrite H by (now left). cbn [bind]. rewrite IH by (intros; apply H; now right). now rewrite app_assoc.
Qed.
(** the factor of the angle *)
Definition ry_factor (rank : nat) (gsd_sign : R) (qe : bool) : R := if qe then 1%R else (ry_prefactor rank * gsd_sign)%R.
Lemma even_sign i : (1 - 2 * INR (i mod 2))%R = (if Nat.even i then 1 else -1)%R.
Proof.
  destruct (Nat.Even_or_Odd i) as [(k & ->)|(k & ->)].
  - rewrite Nat.mul_comm, Nat.mod_mul by lia. rewrite Nat.even_mul, orb_true_r. cbn. ring.
  - replace (2 * k + 1) with (1 + k * 2) at 1 by lia. rewrite Nat.mod_add by lia. rewrite Nat.even_add, Nat.even_mul. cbn. ring.
Qed.
Lemma mcRy_model th t cc a0 ar gc gs qe : let rest := (ar ++ rev cc ++ gc)%list in Forall (fun c => t <> c) (a0 :: rest) ->
  multi_qubit_controlled_Ry (RtoC th) t cc (a0 :: ar) gc gs qe =
  Ok (map (gate_of t) (mcRy_ops (ry_factor (length (a0 :: ar)) gs qe * (th * / INR (2 ^ length rest))) (false, a0) (map (kind (match gc with [] => false | _ => true end)) rest))).
Proof.
  intros rest F. unfold multi_qubit_controlled_Ry. cbv zeta. change ((a0 :: ar) ++ rev cc ++ gc)%list with (a0 :: rest). replace (length (a0 :: rest) - 1) with (length rest) by (cbn [length]; lia).
  set (phi := (ry_factor (length (a0 :: ar)) gs qe * (th * / INR (2 ^ length rest)))%R). set (g := match gc with [] => false | _ => true end).
  replace (negb match gc with [] => true | _ => false end) with g by (destruct gc; reflexivity).
  rewrite (foreach_append (fun i => map (gate_of t) (round phi ((false, a0) :: map (kind g) rest) i))).
  - cbn [app]. f_equal. rewrite <- rounds. rewrite !flat_map_concat_map, concat_map, map_map. cbn [length]. rewrite map_length. reflexivity.
  - intros i s Ii. apply in_seq in Ii.
    replace (RtoC (ry_sign i (length (a0 :: ar)) gs qe) * (RtoC th * RtoC (/ INR (2 ^ length rest))))%C with (RtoC (if Nat.even i then phi else - phi)).
    + rewrite py_Ry. unfold add_gate at 1. cbn [bind]. rewrite add_all by (reflexivity || lia || exact F). cbn [map round]. unfold round. cbn [map gate_of]. now rewrite <- app_assoc.
    + unfold ry_sign, phi, ry_factor. rewrite even_sign. destruct qe, (Nat.even i); apply C_ext; cbn; ring.
Qed.
