(** Circuit editing, parameters, CNOT counts, comparison (C12, C13, C14, C50) and the
    exceptional exit of simplify (C09). *)
From Coq Require Import Reals String Ascii List Arith Lia Bool Lra Permutation NArith.
From Verif Require Import CBase Result Bits Spec GateModel ComputerModel ApplyProofs SafeProofs GateProofs LibProofs SimProofs InteractProofs CircuitModel SimplifyProofs SimplifyLoop.
Import ListNotations.

(** *** C12 *)
Lemma vec_insert_nth {A} (v : list A) pos xs i : pos <= length v ->
  nth_error (vec_insert v pos xs) i =
  if i <? pos then nth_error v i else if i <? pos + length xs then nth_error xs (i - pos) else nth_error v (i - length xs).
Proof.
  intros H. unfold vec_insert. assert (HL : length (firstn pos v) = pos) by (rewrite firstn_length; lia).
  destruct (Nat.ltb_spec i pos).
  - rewrite nth_error_app1 by lia. rewrite <- (firstn_skipn pos v) at 2. rewrite nth_error_app1 by lia. reflexivity.
  - rewrite nth_error_app2 by lia. rewrite HL. destruct (Nat.ltb_spec i (pos + length xs)).
    + rewrite nth_error_app1 by lia. reflexivity.
    + rewrite nth_error_app2 by lia. rewrite <- (firstn_skipn pos v) at 2. rewrite nth_error_app2 by lia. f_equal. lia.
Qed.
Lemma erase_nth {A} (v : list A) p1 p2 i : p1 <= p2 <= length v ->
  nth_error (firstn p1 v ++ skipn p2 v) i = if i <? p1 then nth_error v i else nth_error v (i + (p2 - p1)).
Proof.
  intros H. assert (HL : length (firstn p1 v) = p1) by (rewrite firstn_length; lia).
  destruct (Nat.ltb_spec i p1).
  - rewrite nth_error_app1 by lia. rewrite <- (firstn_skipn p1 v) at 2. rewrite nth_error_app1 by lia. reflexivity.
  - rewrite nth_error_app2 by lia. rewrite HL. rewrite <- (firstn_skipn p2 v) at 2.
    assert (HL2 : length (firstn p2 v) = p2) by (rewrite firstn_length; lia).
    rewrite nth_error_app2 by lia. f_equal. lia.
Qed.
Lemma list_set_nth {A} (v : list A) p x i : p < length v ->
  nth_error (list_set v p x) i = if i =? p then Some x else nth_error v i.
Proof.
  revert p i; induction v as [|a v IH]; intros p i H; simpl in H; [lia|].
  destruct p, i; simpl; auto. apply IH; lia.
Qed.

Lemma insert_gate_spec gs pos g :
  match insert_gate gs pos g with
  | Ok gs' => pos <= length gs /\ length gs' = S (length gs) /\
      forall i, nth_error gs' i = if i <? pos then nth_error gs i else if i =? pos then Some g else nth_error gs (i - 1)
  | Throw e => length gs < pos /\ e = RuntimeErr
  end.
Proof.
  unfold insert_gate. destruct (Nat.ltb_spec (length gs) pos); [auto|]. split; [lia|]. split.
  - unfold vec_insert. rewrite !app_length, firstn_length, skipn_length. simpl. lia.
  - intros i. rewrite vec_insert_nth by lia. simpl length.
    destruct (Nat.ltb_spec i pos); [reflexivity|]. destruct (Nat.ltb_spec i (pos + 1)), (Nat.eqb_spec i pos); try lia; [|reflexivity].
    subst. rewrite Nat.sub_diag. reflexivity.
Qed.
Lemma insert_circuit_spec gs pos c :
  match insert_circuit gs pos c with
  | Ok gs' => pos <= length gs /\
      forall i, nth_error gs' i = if i <? pos then nth_error gs i
                                  else if i <? pos + length c then nth_error c (i - pos) else nth_error gs (i - length c)
  | Throw e => length gs < pos /\ e = RuntimeErr
  end.
Proof.
  unfold insert_circuit. destruct (Nat.ltb_spec (length gs) pos); [auto|]. split; [lia|].
  intros i. apply vec_insert_nth; lia.
Qed.
Lemma remove_gate_spec gs pos :
  match remove_gate gs pos with
  | Ok gs' => pos < length gs /\ forall i, nth_error gs' i = if i <? pos then nth_error gs i else nth_error gs (S i)
  | Throw e => length gs <= pos /\ e = RuntimeErr
  end.
Proof.
  unfold remove_gate. destruct (Nat.leb_spec (length gs) pos); [auto|]. split; [lia|].
  intros i. unfold vec_erase. rewrite erase_nth by lia. destruct (i <? pos); [reflexivity|]. f_equal; lia.
Qed.
Lemma replace_gate_spec gs pos g :
  match replace_gate gs pos g with
  | Ok gs' => pos < length gs /\ forall i, nth_error gs' i = if i =? pos then Some g else nth_error gs i
  | Throw e => length gs <= pos /\ e = RuntimeErr
  end.
Proof.
  unfold replace_gate. destruct (Nat.leb_spec (length gs) pos); [auto|]. rewrite vset_ok by lia. split; [lia|].
  intros i. apply list_set_nth; lia.
Qed.
Lemma swap_gates_spec gs p1 p2 :
  match swap_gates gs p1 p2 with
  | Ok gs' => p1 < length gs /\ p2 < length gs /\
      forall i, nth_error gs' i = if i =? p1 then nth_error gs p2 else if i =? p2 then nth_error gs p1 else nth_error gs i
  | Throw e => (length gs <= p1 \/ length gs <= p2) /\ e = RuntimeErr
  end.
Proof.
  unfold swap_gates. destruct (Nat.leb_spec (length gs) p1); cbn [orb]; [auto|].
  destruct (Nat.leb_spec (length gs) p2); [auto|].
  rewrite !(vget_ok gs _ gate0) by assumption. cbn [bind]. rewrite vset_ok by assumption. cbn [bind].
  rewrite vset_ok by (rewrite list_set_length; assumption). split; [assumption|]. split; [assumption|].
  intros i. rewrite list_set_nth by (rewrite list_set_length; assumption). rewrite list_set_nth by assumption.
  rewrite (nth_error_nth' gs gate0 H), (nth_error_nth' gs gate0 H0).
  destruct (Nat.eqb_spec i p2), (Nat.eqb_spec i p1); subst; try reflexivity.
Qed.
Lemma add_circuit_spec gs c : add_circuit gs c = gs ++ c.
Proof.
  unfold add_circuit. revert gs; induction c as [|g c IH]; intros gs; simpl; [rewrite app_nil_r; reflexivity|].
  rewrite IH. unfold add_gate. rewrite <- app_assoc. reflexivity.
Qed.
Lemma remove_gates_spec gs p1 p2 : p1 <= p2 ->
  match remove_gates gs p1 p2 with
  | Ok gs' => p2 < length gs /\ forall i, nth_error gs' i = if i <? p1 then nth_error gs i else nth_error gs (i + (p2 - p1))
  | Throw e => length gs <= p2 /\ e = RuntimeErr
  end.
Proof.
  intros HP. unfold remove_gates. destruct (Nat.leb_spec (length gs) p1); cbn [orb]; [split; [lia|reflexivity]|].
  destruct (Nat.leb_spec (length gs) p2); [auto|]. destruct (Nat.ltb_spec p2 p1); [lia|]. split; [lia|].
  intros i. apply erase_nth; lia.
Qed.
Lemma remove_gates_tail gs p1 : remove_gates gs p1 (length gs) = Throw RuntimeErr.
Proof. unfold remove_gates. rewrite (proj2 (Nat.leb_le (length gs) (length gs))) by lia. rewrite orb_true_r. reflexivity. Qed.
Lemma remove_gates_reversed gs p1 p2 : p2 < p1 < length gs -> remove_gates gs p1 p2 = Throw UB_oob.
Proof.
  intros H. unfold remove_gates. destruct (Nat.leb_spec (length gs) p1); [lia|]. destruct (Nat.leb_spec (length gs) p2); [lia|].
  cbn [orb]. destruct (Nat.ltb_spec p2 p1); [reflexivity|lia].
Qed.

(** *** C13 *)
Definition n_params (gs : list gate) : nat := length (filter has_parameter gs).
(** v is x up to the skip tolerance or up to whole periods of the gate *)
Definition angle_matches (g : gate) (v x : R) : Prop :=
  (Rabs (v - x) <= 1e-12)%R \/
  exists k : Z, v = (x - IZR k * (if (String.eqb (glabel g) "R" || String.eqb (glabel g) "cR" || String.eqb (glabel g) "A")%bool
                                  then 2 * PI else 4 * PI))%R.
Inductive params_assigned : list gate -> list R -> list gate -> Prop :=
| pa_nil : params_assigned [] [] []
| pa_skip g gs ps gs' : gparam g = None -> params_assigned gs ps gs' -> params_assigned (g :: gs) ps (g :: gs')
| pa_set g g' v v' f x gs ps gs' : gparam g = Some (v, f) -> gparam g' = Some (v', f) ->
    glabel g' = glabel g -> gtarget g' = gtarget g -> gcontrol g' = gcontrol g ->
    angle_matches g v' x -> gmat g' = type_mat (gate_type g) v' ->
    params_assigned gs ps gs' -> params_assigned (g :: gs) (x :: ps) (g' :: gs').

Lemma label_type_param ty l : mapLabelToType l = ty -> type_param ty = true ->
  match ty with TR => l = "R" | TRx => l = "Rx" | TRy => l = "Ry" | TRz => l = "Rz" | TcR => l = "cR" | TcRz => l = "cRz" | TA => l = "A"
  | _ => False end%string.
Proof.
  unfold mapLabelToType.
  repeat match goal with |- context [String.eqb ?a ?b] => destruct (String.eqb_spec a b) as [?|?] end;
  intros <-; intros H; try discriminate H; assumption.
Qed.
Lemma remake g x : stdg g -> has_parameter g = true ->
  exists g' v v' f, make_gate (glabel g) (gtarget g) (gcontrol g) x = Ok g' /\ gparam g = Some (v, f) /\ gparam g' = Some (v', f) /\
    glabel g' = glabel g /\ gtarget g' = gtarget g /\ gcontrol g' = gcontrol g /\
    angle_matches g v' x /\ gmat g' = type_mat (gate_type g) v' /\ stdg g'.
Proof.
  intros (ty & p & HS) HP.
  assert (TP : type_param ty = true).
  { unfold has_parameter in HP. rewrite (sg_param _ _ _ HS) in HP. unfold std_param in HP. destruct (type_param ty); [reflexivity|discriminate]. }
  pose proof (label_type_param _ _ (sg_type _ _ _ HS) TP) as HL.
  assert (HM : exists g', make_gate (glabel g) (gtarget g) (gcontrol g) x = Ok g').
  { unfold make_gate. rewrite (sg_q _ _ _ HS). destruct ty; try discriminate TP; cbn [type_1q]; rewrite HL; eexists; reflexivity. }
  destruct HM as [g' HM]. destruct (make_gate_std _ _ _ _ _ HM) as (p' & HS' & H1 & H2 & H3).
  assert (HT : gate_type g' = ty) by (unfold gate_type; rewrite H1; apply (sg_type _ _ _ HS)).
  assert (E : mapLabelToType (glabel g) = ty) by apply (sg_type _ _ _ HS). rewrite E in HS'.
  exists g', p, p', (negb (gtype_eqb ty TA)).
  pose proof (sg_param _ _ _ HS) as P1. pose proof (sg_param _ _ _ HS') as P2. unfold std_param in P1, P2. rewrite TP in P1, P2.
  repeat split; auto.
  - destruct (make_gate_param _ _ _ _ _ _ _ HM P2) as (k & (Hk & _) & _). right. exists k. cbn zeta in Hk. rewrite Hk at 1. ring.
  - rewrite (sg_mat _ _ _ HS'), (sg_type _ _ _ HS). reflexivity.
  - exists ty, p'. exact HS'.
Qed.

Lemma set_parameters_loop_spec : forall gs pre ps, Forall stdg gs ->
  if n_params gs <=? length ps then
    exists gs', set_parameters_loop gs (pre ++ ps) (length pre) = (gs', Ok (length pre + n_params gs)) /\
      params_assigned gs (firstn (n_params gs) ps) gs' /\ Forall stdg gs'
  else exists gs', set_parameters_loop gs (pre ++ ps) (length pre) = (gs', Throw UB_oob).
Proof.
  induction gs as [|g gs IH]; intros pre ps HF.
  - cbn. exists []. rewrite Nat.add_0_r. repeat split; constructor.
  - inversion HF as [|? ? Hg Hgs]; subst. cbn [set_parameters_loop]. unfold n_params. cbn [filter].
    destruct (has_parameter g) eqn:EP.
    + destruct (gparam g) as [[v f]|] eqn:EG; [|unfold has_parameter in EP; rewrite EG in EP; discriminate].
      assert (EV : parameter g = Some v) by (unfold parameter; rewrite EG; reflexivity). rewrite EV. cbn [length].
      fold (n_params gs). destruct ps as [|x ps].
      * cbn [Nat.leb length]. rewrite app_nil_r, vget_oob by lia. eauto.
      * assert (EX : vget (pre ++ x :: ps) (length pre) = Ok x).
        { rewrite (vget_ok _ _ 0%R) by (rewrite app_length; simpl; lia). rewrite app_nth2, Nat.sub_diag by lia. reflexivity. }
        rewrite EX. specialize (IH (pre ++ [x]) ps Hgs). rewrite app_length in IH. simpl length in IH.
        rewrite <- app_assoc in IH. simpl app in IH. rewrite Nat.add_1_r in IH.
        assert (EL : (length pre <? length (pre ++ x :: ps)) = true).
        { apply Nat.ltb_lt. rewrite app_length. simpl. lia. }
        rewrite EL, andb_true_r. cbn [length Nat.leb firstn].
        destruct (Rltb_spec 1e-12 (Rabs (v - x))) as [HR|HR].
        -- destruct (remake g x Hg EP) as (g' & v0 & v' & f' & HM & G1 & G2 & GL & GT & GC & GA & GM & GS).
           rewrite EG in G1. injection G1 as <- <-.
           rewrite HM. destruct (n_params gs <=? length ps).
           ++ destruct IH as (gs' & E1 & E2 & E3). rewrite E1. exists (g' :: gs'). split; [f_equal; f_equal; lia|].
              split; [eapply pa_set; eauto|constructor; assumption].
           ++ destruct IH as (gs' & E1). rewrite E1. eauto.
        -- destruct (n_params gs <=? length ps).
           ++ destruct IH as (gs' & E1 & E2 & E3). rewrite E1. exists (g :: gs'). split; [f_equal; f_equal; lia|].
              split; [|constructor; assumption].
              eapply pa_set; eauto.
              ** left. lra.
              ** destruct Hg as (ty & p & HS). rewrite (sg_type _ _ _ HS), (sg_mat _ _ _ HS).
                 pose proof (sg_param _ _ _ HS) as P1. rewrite EG in P1. unfold std_param in P1. destruct (type_param ty); [|discriminate].
                 injection P1 as -> _. reflexivity.
           ++ destruct IH as (gs' & E1). rewrite E1. eauto.
    + assert (EG : gparam g = None) by (unfold has_parameter in EP; destruct (gparam g); [discriminate|reflexivity]).
      assert (EV : parameter g = None) by (unfold parameter; rewrite EG; reflexivity). rewrite EV.
      fold (n_params gs). specialize (IH pre ps Hgs). destruct (n_params gs <=? length ps).
      * destruct IH as (gs' & E1 & E2 & E3). rewrite E1. exists (g :: gs'). split; [reflexivity|].
        split; [apply pa_skip; assumption|constructor; assumption].
      * destruct IH as (gs' & E1). rewrite E1. eauto.
Qed.
Lemma set_parameters_spec gs ps : Forall stdg gs -> length ps = n_params gs ->
  exists gs', set_parameters gs ps = (gs', None) /\ params_assigned gs ps gs' /\ Forall stdg gs'.
Proof.
  intros HF HL. pose proof (set_parameters_loop_spec gs [] ps HF) as H. rewrite HL, Nat.leb_refl in H. cbn [app length Nat.add] in H.
  destruct H as (gs' & E & HA & HS). exists gs'. unfold set_parameters. rewrite E, HL, Nat.eqb_refl.
  rewrite <- HL, firstn_all in HA. auto.
Qed.
Lemma set_parameters_too_many gs ps : Forall stdg gs -> n_params gs < length ps ->
  exists gs', set_parameters gs ps = (gs', Some RuntimeErr).
Proof.
  intros HF HL. pose proof (set_parameters_loop_spec gs [] ps HF) as H.
  destruct (Nat.leb_spec (n_params gs) (length ps)); [|lia]. destruct H as (gs' & E & _). exists gs'.
  cbn [app length Nat.add] in E. unfold set_parameters. rewrite E. destruct (Nat.eqb_spec (n_params gs) (length ps)); [lia|reflexivity].
Qed.
Lemma set_parameters_too_few gs ps : Forall stdg gs -> length ps < n_params gs ->
  exists gs', set_parameters gs ps = (gs', Some UB_oob).
Proof.
  intros HF HL. pose proof (set_parameters_loop_spec gs [] ps HF) as H.
  destruct (Nat.leb_spec (n_params gs) (length ps)); [lia|]. destruct H as (gs' & E). exists gs'.
  cbn [app length Nat.add] in E. unfold set_parameters. rewrite E. reflexivity.
Qed.
(** get_parameters returns exactly the stored parameters *)
Lemma params_assigned_get gs ps gs' : params_assigned gs ps gs' ->
  length (get_parameters gs') = length ps /\ length gs' = length gs /\
  forall i, i < length ps -> exists g, In g gs /\ angle_matches g (nth i (get_parameters gs') 0%R) (nth i ps 0%R).
Proof.
  induction 1 as [|g gs ps gs' HG HA IH|g g' v v' f x gs ps gs' HG HG' HL HT HC HM HMat HA IH]; cbn [get_parameters].
  - repeat split; auto. simpl; intros; lia.
  - unfold parameter. rewrite HG. cbn [option_map]. destruct IH as (I1 & I2 & I3). repeat split; auto; [simpl; lia|].
    intros i Hi. destruct (I3 i Hi) as (h & Hh & Hm). exists h. split; [right; exact Hh|exact Hm].
  - unfold parameter. rewrite HG'. cbn [option_map fst length nth]. destruct IH as (I1 & I2 & I3). repeat split; [lia|simpl; lia|].
    intros i Hi. destruct i as [|i]; cbn [nth].
    + exists g. split; [left; reflexivity|exact HM].
    + destruct (I3 i ltac:(lia)) as (h & Hh & Hm). exists h. split; [right; exact Hh|exact Hm].
Qed.
(** too many values: the circuit has been modified although an exception is raised *)
Lemma set_parameters_not_atomic :
  exists g g', make_gate "Rz" 0 0 0 = Ok g /\ set_parameters [g] [1%R; 2%R] = ([g'], Some RuntimeErr) /\
    parameter g = Some 0%R /\ parameter g' = Some 1%R.
Proof.
  assert (P4 : (3 < PI)%R) by (pose proof PI2_3_2; lra).
  assert (N0 : normalize_angle 0 (4 * PI) = 0%R) by (apply normalize_angle_id; lra).
  assert (N1 : normalize_angle 1 (4 * PI) = 1%R) by (apply normalize_angle_id; lra).
  eexists. eexists. split; [reflexivity|]. unfold set_parameters, set_parameters_loop, parameter. cbn [gparam option_map fst vget nth_error].
  rewrite N0. rewrite Rltb_true by (rewrite Rabs_left; lra). cbn [length Nat.ltb Nat.leb andb glabel gtarget gcontrol make_gate].
  split; [reflexivity|]. cbn [gparam option_map fst]. rewrite N1. auto.
Qed.

(** *** C14 *)
Lemma num_cnots_sum gs : forall n, fold_left (fun n g => n + cnot_cost g) gs n = n + get_num_cnots gs.
Proof.
  unfold get_num_cnots. induction gs as [|g gs IH]; intros n; cbn [fold_left]; [lia|]. rewrite (IH (n + cnot_cost g)), (IH (0 + cnot_cost g)). lia.
Qed.
Lemma num_cnots_cons g gs : get_num_cnots (g :: gs) = cnot_cost g + get_num_cnots gs.
Proof. unfold get_num_cnots at 1. cbn [fold_left]. rewrite num_cnots_sum. reflexivity. Qed.
Lemma num_cnots_app a b : get_num_cnots (a ++ b) = get_num_cnots a + get_num_cnots b.
Proof. induction a as [|g a IH]; [reflexivity|]. cbn [app]. rewrite !num_cnots_cons, IH. lia. Qed.
Lemma num_cnots_rev gs : get_num_cnots (rev gs) = get_num_cnots gs.
Proof.
  induction gs as [|g gs IH]; [reflexivity|]. cbn [rev]. rewrite num_cnots_app, !num_cnots_cons, IH. cbn. lia.
Qed.
Definition label_in (ls : list string) (g : gate) : bool := existsb (String.eqb (glabel g)) ls.
Lemma cost_split g : cnot_cost g = b2n (label_in ["CNOT"; "cX"; "aCNOT"; "acX"]%string g) + 3 * b2n (label_in ["A"; "SWAP"]%string g).
Proof.
  unfold cnot_cost, label_in. cbn [existsb].
  destruct (String.eqb_spec (glabel g) "CNOT") as [E|]; [rewrite ?E; reflexivity|].
  destruct (String.eqb_spec (glabel g) "cX") as [E|]; [rewrite ?E; reflexivity|].
  destruct (String.eqb_spec (glabel g) "aCNOT") as [E|]; [rewrite ?E; reflexivity|].
  destruct (String.eqb_spec (glabel g) "acX") as [E|]; [rewrite ?E; reflexivity|].
  destruct (String.eqb_spec (glabel g) "A") as [E|]; [rewrite ?E; reflexivity|].
  destruct (String.eqb_spec (glabel g) "SWAP") as [E|]; rewrite ?E; reflexivity.
Qed.
Lemma num_cnots_count gs : get_num_cnots gs =
  length (filter (label_in ["CNOT"; "cX"; "aCNOT"; "acX"]%string) gs) + 3 * length (filter (label_in ["A"; "SWAP"]%string) gs).
Proof.
  induction gs as [|g gs IH]; [reflexivity|]. rewrite num_cnots_cons, IH, cost_split. cbn [filter].
  destruct (label_in _ g), (label_in _ g); cbn [b2n length]; lia.
Qed.
Lemma cost_label g l : glabel g = l -> cnot_cost g =
  (if (String.eqb l "CNOT" || String.eqb l "cX" || String.eqb l "aCNOT" || String.eqb l "acX")%bool then 1
   else if (String.eqb l "A" || String.eqb l "SWAP")%bool then 3 else 0).
Proof. intros <-. reflexivity. Qed.
Lemma adjoint_cost g : lib_shape g -> cnot_cost (gate_adjoint g) = cnot_cost g.
Proof.
  intros H. unfold gate_adjoint. destruct (gparam g) as [[p b]|] eqn:EP; [reflexivity|].
  destruct (self_adjoint (gmat g)) eqn:ES; [reflexivity|].
  destruct H as [(ty & p & HS)|(m & (HL & _ & _) & _)].
  - assert (TP : type_param ty = false).
    { pose proof (sg_param _ _ _ HS) as P. rewrite EP in P. unfold std_param in P. destruct (type_param ty); [discriminate|reflexivity]. }
    pose proof (herm_types ty p TP) as HH. rewrite (sg_mat _ _ _ HS) in ES. pose proof (sg_type _ _ _ HS) as HT.
    pose proof (sg_def _ _ _ HS) as HD. rewrite HT.
    destruct ty; try (rewrite self_adjoint_herm in ES by exact HH; discriminate ES); try congruence.
    + rewrite (cost_label g "V"%string) by (apply label_V; exact HT). rewrite (label_V g HT). reflexivity.
    + rewrite (cost_label g "adj(V)"%string) by (apply label_adjV; exact HT). rewrite (label_adjV g HT). reflexivity.
    + assert (E : glabel g = "S"%string).
      { unfold gate_type, mapLabelToType in HT. repeat match type of HT with context [String.eqb ?a ?b] => destruct (String.eqb_spec a b) as [?|?]; try discriminate HT; auto end. }
      rewrite (cost_label g _ E). reflexivity.
    + assert (E : glabel g = "T"%string).
      { unfold gate_type, mapLabelToType in HT. repeat match type of HT with context [String.eqb ?a ?b] => destruct (String.eqb_spec a b) as [?|?]; try discriminate HT; auto end. }
      rewrite (cost_label g _ E). reflexivity.
    + rewrite (cost_label g "cV"%string) by (apply label_cV; exact HT). rewrite (label_cV g HT). reflexivity.
    + rewrite (cost_label g "adj(cV)"%string) by (apply label_adjcV; exact HT). rewrite (label_adjcV g HT). reflexivity.
  - assert (HT : gate_type g = TUndefined) by (unfold gate_type; destruct HL as [-> | ->]; reflexivity). rewrite HT.
    destruct HL as [E|E]; rewrite (cost_label g _ E), E; reflexivity.
Qed.
Lemma num_cnots_adjoint gs : Forall library_gate gs -> get_num_cnots (circuit_adjoint gs) = get_num_cnots gs.
Proof.
  intros H. unfold circuit_adjoint. rewrite num_cnots_rev. induction H as [|g gs Hg H IH]; [reflexivity|].
  cbn [map]. rewrite !num_cnots_cons, IH, adjoint_cost; [reflexivity|apply library_shape, Hg].
Qed.
