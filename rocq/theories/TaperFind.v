(** find_Z2_symmetries as a whole. *)
From Coq Require Import Reals String List Arith Lia Bool Lra Permutation Sorted.
From Verif Require Import CBase Result Bits Spec GateModel OpSpec ComputerModel SafeProofs GateProofs LibProofs CircuitModel PauliProofs OperatorModel OperatorProofs PauliIndep
  TaperModel TaperSpec TaperAlg TaperKernel TaperGS TaperAbel TaperPauli TaperSym.
Import ListNotations.
Local Open Scope nat_scope.

(** np.argsort: some permutation of the indices that sorts the values *)
Definition legal_argsort (argsort : list nat -> list nat) : Prop := forall s,
  Permutation (argsort s) (seq 0 (length s)) /\ forall i j, i < j < length s -> nth (nth i (argsort s) 0) s 0 <= nth (nth j (argsort s) 0) s 0.

Lemma Forall2_nth {A B} (R : A -> B -> Prop) l l' a b : Forall2 R l l' -> forall i, i < length l -> R (nth i l a) (nth i l' b).
Proof. induction 1 as [|x y l l' HR HF IH]; intros i Hi; cbn [length] in Hi; [lia|]. destruct i; cbn [nth]; [exact HR|apply IH; lia]. Qed.

Definition has_yz (gs : list gate) : Prop := exists g, In g gs /\ (glabel g = "Y" \/ glabel g = "Z")%string.
Lemma zb_has_yz n gs : below n gs -> has_yz gs -> exists q, q < n /\ zb gs q = true.
Proof.
  intros Hb (g & Hg & HL). exists (gtarget g). split; [apply Hb, Hg|]. unfold zb. apply existsb_exists. exists g. rewrite Nat.eqb_refl. split; [exact Hg|].
  destruct HL as [-> | ->]; reflexivity.
Qed.

Record sym_facts (n : nat) (h : qop) (gens : list (list gate)) (sigma : list nat) : Prop := {
  sf_canon : Forall canonical_pauli gens; sf_below : Forall (below n) gens; sf_len : length sigma = length gens;
  sf_terms : forall i, i < length gens -> orth_terms n h (genf n gens i);
  sf_mutual : forall i j, i < length gens -> j < length gens -> sf n (genf n gens i) (genf n gens j) = false;
  sf_indep : indep (length gens) (genf n gens);
  sf_max : forall u, (forall k, 2 * n <= k -> u k = false) -> orth_terms n h u -> (forall i, i < length gens -> sf n u (genf n gens i) = false) -> inspan (length gens) (genf n gens) u;
  sf_pair : forall i, i < length gens -> has_yz (nth i gens []) ->
    nth i sigma 0 < n /\ zb (nth i gens []) (nth i sigma 0) = true /\ forall j, j < length gens -> j <> i -> zb (nth j gens []) (nth i sigma 0) = false;
  sf_desc : forall i j, i < j < length gens -> nth j sigma 0 <= nth i sigma 0 }.

Definition uop (g : list gate) (x : gate) : qop := [(RtoC (1 / sqrt 2), g); (RtoC (1 / sqrt 2), [x])].
Theorem find_spec argsort h b : legal_argsort argsort -> distinct_op h -> (forall t, In t h -> below (op_num_qubits h) (snd t)) ->
  exists gens sigma us, sym_facts (op_num_qubits h) h gens sigma /\
    Forall2 (fun gq u => exists x, make_gate "X" (snd gq) (snd gq) 0 = Ok x /\ u = uop (fst gq) x) (combine gens sigma) us /\
    find_Z2_symmetries argsort h b = match us with
      | [] => Throw (PyError "IndexError")
      | u :: us' => do v <- foreach us' (fun op acc => operator_product acc op true true) u;
          Ok {| sy_generators := gens; sy_sigma := sigma; sy_unitaries := us; sy_unitary := v |}
      end.
Proof.
  intros HA HD HB. set (n := op_num_qubits h) in *.
  destruct (binary_spec h n b eq_refl HD HB) as (M & EM & WM & RM & IM & ZM & TM & SM). set (l := length M) in *.
  destruct (mapM_ok (pauli_of_vec n) (fun v gs => canonical_pauli gs /\ below n gs /\ forall k, nth k v false = vec_of n gs k) M) as (gens & Eg & HF).
  { intros v Hv. destruct (pauli_of_vec_spec n v) as (gs & E & H); [unfold wide in WM; rewrite Forall_forall in WM; apply WM, Hv|]. exists gs. split; [exact E|exact H]. }
  destruct (pair_spec n b M RM) as [Ls HP]. set (sigma := pair_sigma n b M) in *.
  destruct (HA sigma) as [Hperm Hsort]. rewrite Ls in Hperm, Hsort. fold l in Hperm, Hsort, HP, Ls.
  set (order := rev (argsort sigma)).
  assert (HO : Permutation order (seq 0 l)) by (unfold order; rewrite <- Hperm; apply Permutation_sym, Permutation_rev).
  assert (LO := order_len l order HO).
  set (sigma' := map (fun i => nth i sigma 0) order). set (gens' := map (fun i => nth i gens []) order).
  assert (Lg : length gens' = l) by (unfold gens'; rewrite map_length; exact LO).
  assert (Lsg : length sigma' = l) by (unfold sigma'; rewrite map_length; exact LO).
  assert (Ng : forall i, i < l -> nth i gens' [] = nth (nth i order 0) gens []) by (intros i Hi; unfold gens'; rewrite (nth_map_in _ _ i 0) by lia; reflexivity).
  assert (Ns : forall i, i < l -> nth i sigma' 0 = nth (nth i order 0) sigma 0) by (intros i Hi; unfold sigma'; rewrite (nth_map_in _ _ i 0) by lia; reflexivity).
  assert (HV : forall r, r < l -> canonical_pauli (nth r gens []) /\ below n (nth r gens []) /\ forall k, view M r k = vec_of n (nth r gens []) k).
  { intros r Hr. exact (Forall2_nth _ _ _ [] [] HF r Hr). }
  assert (HG : forall i k, i < l -> genf n gens' i k = view M (nth i order 0) k).
  { intros i k Hi. unfold genf. rewrite Ng by exact Hi. symmetry. apply HV, (order_lt l order HO), Hi. }
  destruct (mapM_ok (fun gq => clifford (fst gq) (snd gq)) (fun gq u => exists x, make_gate "X" (snd gq) (snd gq) 0 = Ok x /\ u = uop (fst gq) x) (combine gens' sigma')) as (us & Eu & HU).
  { intros [g q] _. cbn [fst snd]. destruct (pauli_make "X" q eq_refl) as (x & Ex & _). exists (uop g x). split; [unfold clifford; rewrite Ex; reflexivity|]. exists x. auto. }
  exists gens', sigma', us. split; [|split; [exact HU|]].
  - assert (HT : forall i, i < l -> canonical_pauli (nth i gens' []) /\ below n (nth i gens' [])).
    { intros i Hi. rewrite Ng by exact Hi. destruct (HV _ (order_lt l order HO i Hi)) as (H1 & H2 & _). auto. }
    constructor; rewrite ?Lg.
    + apply Forall_forall. intros g Hg. apply (In_nth _ _ []) in Hg. destruct Hg as (i & Hi & <-). apply HT. lia.
    + apply Forall_forall. intros g Hg. apply (In_nth _ _ []) in Hg. destruct Hg as (i & Hi & <-). apply HT. lia.
    + exact Lsg.
    + intros i Hi t Ht. rewrite <- (TM _ (order_lt l order HO i Hi) t Ht). apply sf_ext; [reflexivity|]. intros k. apply HG, Hi.
    + intros i j Hi Hj. rewrite <- (ZM _ _ (order_lt l order HO i Hi) (order_lt l order HO j Hj)). apply sf_ext; intros k; apply HG; assumption.
    + apply (indep_order l order HO (view M)); [intros; apply HG; assumption|exact IM].
    + intros u Hu Ho Hi. apply (span_order l order HO (view M)); [intros; apply HG; assumption|]. apply SM; [exact Hu|exact Ho|].
      intros r Hr. destruct (order_onto l order HO r Hr) as (i & Hil & <-). rewrite <- (Hi i Hil). apply sf_ext; [reflexivity|]. intros k. symmetry. apply HG, Hil.
    + intros i Hi Hyz. set (r := nth i order 0). assert (Hr : r < l) by (apply (order_lt l order HO), Hi). rewrite Ns by exact Hi. fold r.
      assert (Ez : forall r q, r < l -> q < n -> zb (nth r gens []) q = view M r (2 * n - q - 1)).
      { intros r0 q Hr0 Hq. destruct (HV r0 Hr0) as (_ & _ & E). rewrite E. unfold vec_of. destruct (Nat.ltb_spec (2 * n - q - 1) n); [lia|]. destruct (Nat.ltb_spec (2 * n - q - 1) (2 * n)); [|lia]. f_equal. lia. }
      destruct (HP r Hr) as [(j & Hj & E & Vt & Vf)|HZ].
      * rewrite E. split; [lia|]. split.
        -- rewrite Ng by exact Hi. fold r. rewrite Ez by lia. rewrite <- Vt. f_equal. lia.
        -- intros k Hk Nk. rewrite Ng by exact Hk. rewrite Ez by (try lia; apply (order_lt l order HO), Hk).
           replace (2 * n - (n - j - 1) - 1) with (n + j) by lia. apply Vf; [apply (order_lt l order HO), Hk|]. intros EE. apply Nk, (order_inj l order HO); assumption.
      * exfalso. rewrite Ng in Hyz by exact Hi. fold r in Hyz. destruct (HV r Hr) as (_ & Hb & _). destruct (zb_has_yz n _ Hb Hyz) as (q & Hq & Eq). rewrite Ez in Eq by assumption. rewrite HZ in Eq by lia. discriminate.
    + intros i j Hij. rewrite !Ns by lia. unfold order. pose proof (Permutation_length Hperm) as LA. rewrite seq_length in LA. rewrite !rev_nth by lia. rewrite !LA. apply Hsort. lia.
  - unfold find_Z2_symmetries. fold n. cbv zeta. unfold l in *. rewrite EM. cbn [bind]. rewrite Eg. cbn [bind]. fold sigma. fold order. fold sigma' gens'. rewrite Eu. cbn [bind]. reflexivity.
Qed.
