(** Pauli strings as GF(2) vectors. *)
From Coq Require Import Reals String List Arith Lia Bool Permutation.
From Verif Require Import CBase Result Bits Spec GateModel OpSpec ComputerModel SafeProofs GateProofs CircuitModel PauliProofs OperatorModel OperatorProofs PauliIndep TaperModel TaperAlg TaperKernel TaperGS.
Import ListNotations.
Local Open Scope nat_scope.

Definition lx (s : string) : bool := ((s =? "X") || (s =? "Y"))%string.
Definition lz (s : string) : bool := ((s =? "Y") || (s =? "Z"))%string.
(** x and z components on qubit t *)
Definition xb (gs : list gate) (t : nat) : bool := existsb (fun g => Nat.eqb (gtarget g) t && lx (glabel g)) gs.
Definition zb (gs : list gate) (t : nat) : bool := existsb (fun g => Nat.eqb (gtarget g) t && lz (glabel g)) gs.
(** vector layout of the generators: X_(n-1) .. X_0, Z_(n-1) .. Z_0 *)
Definition vec_of (n : nat) (gs : list gate) (k : nat) : bool :=
  if k <? n then xb gs (n - k - 1) else if k <? 2 * n then zb gs (2 * n - k - 1) else false.
Definition below (n : nat) (gs : list gate) : Prop := forall g, In g gs -> gtarget g < n.
Definition str (gs : list gate) : Prop := Forall pauli_gate gs /\ NoDup (map gtarget gs).

Lemma xb_notin gs t : ~ In t (map gtarget gs) -> xb gs t = false.
Proof.
  intros H. unfold xb. induction gs as [|g gs IH]; [reflexivity|]. cbn [existsb map In] in *. destruct (Nat.eqb_spec (gtarget g) t); [tauto|]. cbn [andb orb]. apply IH. tauto.
Qed.
Lemma zb_notin gs t : ~ In t (map gtarget gs) -> zb gs t = false.
Proof.
  intros H. unfold zb. induction gs as [|g gs IH]; [reflexivity|]. cbn [existsb map In] in *. destruct (Nat.eqb_spec (gtarget g) t); [tauto|]. cbn [andb orb]. apply IH. tauto.
Qed.
Lemma xb_cons g gs t : ~ In (gtarget g) (map gtarget gs) -> xb (g :: gs) t = xorb (Nat.eqb t (gtarget g) && lx (glabel g)) (xb gs t).
Proof.
  intros H. cbn [xb existsb]. fold (xb gs t). rewrite (Nat.eqb_sym t). destruct (Nat.eqb_spec (gtarget g) t) as [E|]; cbn [andb orb]; [|rewrite xorb_false_l; reflexivity].
  rewrite (xb_notin gs t) by (rewrite <- E; exact H). destruct (lx (glabel g)); reflexivity.
Qed.
Lemma zb_cons g gs t : ~ In (gtarget g) (map gtarget gs) -> zb (g :: gs) t = xorb (Nat.eqb t (gtarget g) && lz (glabel g)) (zb gs t).
Proof.
  intros H. cbn [zb existsb]. fold (zb gs t). rewrite (Nat.eqb_sym t). destruct (Nat.eqb_spec (gtarget g) t) as [E|]; cbn [andb orb]; [|rewrite xorb_false_l; reflexivity].
  rewrite (zb_notin gs t) by (rewrite <- E; exact H). destruct (lz (glabel g)); reflexivity.
Qed.
Lemma anti_xz a t gs : is_pauli_label a = true -> str gs -> anti a t gs = xorb (xb gs t && lz a) (zb gs t && lx a).
Proof.
  intros Ha [HP HN]. induction gs as [|g gs IH]; [reflexivity|]. cbn [map] in HN. inversion HN as [|? ? N1 N2]; subst.
  rewrite xb_cons, zb_cons by exact N1. cbn [anti existsb]. fold (anti a t gs). specialize (IH (Forall_inv_tail HP) N2). rewrite (Nat.eqb_sym t).
  destruct (Nat.eqb_spec (gtarget g) t) as [<-|]; cbn [andb orb]; [|rewrite !xorb_false_l; exact IH].
  rewrite (anti_notin a _ gs N1), (xb_notin gs _ N1), (zb_notin gs _ N1), orb_false_r, !xorb_false_r.
  destruct (pauli_label_cases a Ha) as [-> | [-> | ->]], (pauli_label_cases _ (proj1 (Forall_inv HP))) as [-> | [-> | ->]]; reflexivity.
Qed.
(** sign of the commutation of two strings *)
Definition anti_str (g h : list gate) : bool := fold_right (fun A s => xorb (anti (glabel A) (gtarget A) g) s) false h.
Definition sgn (b : bool) : C := if b then (- C1)%C else C1.
Lemma sgn_xor a b : (sgn a * sgn b)%C = sgn (xorb a b).
Proof. destruct a, b; unfold sgn; cbn [xorb]; ring. Qed.
Lemma strings_commute g h : str g -> Forall pauli_gate h -> forall psi,
  circ_act g (circ_act h psi) == sscale (sgn (anti_str g h)) (circ_act h (circ_act g psi)).
Proof.
  intros [HP HN]. induction h as [|A h IH] using rev_ind; intros Hh psi.
  - cbn. apply seq_sym, sscale_1.
  - apply Forall_app in Hh. destruct Hh as [Hh HA]. rewrite !circ_act_app. change (circ_act [A]) with (gate_act A).
    eapply seq_trans; [apply (string_anti A g (Forall_inv HA) HP HN)|]. fold (sgn (anti (glabel A) (gtarget A) g)).
    eapply seq_trans; [apply sscale_ext, gate_act_ext, (IH Hh)|]. eapply seq_trans; [apply sscale_ext, gate_act_scale|].
    eapply seq_trans; [apply sscale_sscale|]. rewrite sgn_xor.
    assert (E : anti_str g (h ++ [A]) = xorb (anti (glabel A) (gtarget A) g) (anti_str g h)).
    { clear. induction h as [|B h IHh]; cbn [app anti_str fold_right]; [reflexivity|]. unfold anti_str in IHh. rewrite IHh. fold (anti_str g h).
      destruct (anti (glabel A) (gtarget A) g), (anti (glabel B) (gtarget B) g), (anti_str g h); reflexivity. }
    rewrite E. apply seq_refl.
Qed.
Lemma sf_vec n g h : sf n (vec_of n g) (vec_of n h) = xs (fun t => xorb (xb g t && zb h t) (zb g t && xb h t)) n.
Proof.
  unfold sf. rewrite <- (xs_rev n (fun t => xorb (xb g t && zb h t) (zb g t && xb h t))). apply xs_ext. intros k Hk. unfold vec_of.
  destruct (Nat.ltb_spec k n); [|lia]. destruct (Nat.ltb_spec (n + k) n); [lia|]. destruct (Nat.ltb_spec (n + k) (2 * n)); [|lia].
  replace (2 * n - (n + k) - 1) with (n - k - 1) by lia. reflexivity.
Qed.
Lemma anti_str_sf n g h : str g -> str h -> below n h -> anti_str g h = sf n (vec_of n g) (vec_of n h).
Proof.
  intros Hg Hh Hb. rewrite sf_vec. destruct Hh as [HP HN]. induction h as [|A h IH].
  - symmetry. apply xs_zero. intros t _. unfold zb, xb; cbn [existsb]. rewrite !andb_false_r. reflexivity.
  - cbn [map] in HN. inversion HN as [|? ? N1 N2]; subst. cbn [anti_str fold_right]. fold (anti_str g h).
    rewrite (IH (Forall_inv_tail HP) N2) by (intros x Hx; apply Hb; right; exact Hx). rewrite (anti_xz _ _ _ (proj1 (Forall_inv HP)) Hg).
    rewrite <- (xs_delta (fun t => xorb (xb g t && lz (glabel A)) (zb g t && lx (glabel A))) n (gtarget A)) by (apply Hb; left; reflexivity).
    rewrite <- xs_xor. apply xs_ext. intros t _. rewrite xb_cons, zb_cons by exact N1.
    destruct (t =? gtarget A), (xb g t), (zb g t), (lz (glabel A)), (lx (glabel A)), (xb h t), (zb h t); reflexivity.
Qed.

(** ---- rows of the parity check matrix ---- *)
Lemma parity_row_gen n gs : below n gs -> forall r, length r = 2 * n ->
  let r' := fold_left (fun r g => let r := if ((glabel g =? "Y") || (glabel g =? "Z"))%string then list_set r (n - gtarget g - 1) true else r in
    if ((glabel g =? "X") || (glabel g =? "Y"))%string then list_set r (2 * n - gtarget g - 1) true else r) gs r in
  length r' = 2 * n /\ forall k, k < n -> nth k r' false = (nth k r false || zb gs (n - k - 1))%bool /\ nth (n + k) r' false = (nth (n + k) r false || xb gs (n - k - 1))%bool.
Proof.
  intros Hb. induction gs as [|g gs IH]; intros r HL; cbn [fold_left].
  - split; [exact HL|]. intros k Hk. unfold zb, xb; cbn [existsb]. rewrite !orb_false_r. auto.
  - assert (Hg : gtarget g < n) by (apply Hb; left; reflexivity).
    set (r1 := let r0 := if ((glabel g =? "Y") || (glabel g =? "Z"))%string then list_set r (n - gtarget g - 1) true else r in
      if ((glabel g =? "X") || (glabel g =? "Y"))%string then list_set r0 (2 * n - gtarget g - 1) true else r0).
    assert (L1 : length r1 = 2 * n).
    { unfold r1; cbv zeta. destruct ((glabel g =? "X") || (glabel g =? "Y"))%string, ((glabel g =? "Y") || (glabel g =? "Z"))%string; rewrite ?list_set_length; exact HL. }
    destruct (IH (fun x Hx => Hb x (or_intror Hx)) r1 L1) as [L2 H2]. split; [exact L2|]. intros k Hk. destruct (H2 k Hk) as [Ez Ex]. cbv zeta in Ez, Ex. fold r1. rewrite Ez, Ex.
    cbn [zb xb existsb]. fold (zb gs (n - k - 1)) (xb gs (n - k - 1)). rewrite !orb_assoc. split; f_equal; unfold r1; cbv zeta; fold (lx (glabel g)) (lz (glabel g)).
    + destruct (lx (glabel g)), (lz (glabel g)); rewrite ?nth_list_set by (rewrite ?list_set_length; lia);
        destruct (Nat.eqb_spec (gtarget g) (n - k - 1)), (Nat.eqb_spec k (2 * n - gtarget g - 1)); try lia; cbn [andb];
        rewrite ?nth_list_set by (rewrite ?list_set_length; lia); try (destruct (Nat.eqb_spec k (n - gtarget g - 1)); try lia); rewrite ?orb_false_r, ?orb_true_r; reflexivity.
    + destruct (lx (glabel g)), (lz (glabel g)); rewrite ?nth_list_set by (rewrite ?list_set_length; lia);
        destruct (Nat.eqb_spec (gtarget g) (n - k - 1)), (Nat.eqb_spec (n + k) (2 * n - gtarget g - 1)); try lia; cbn [andb];
        rewrite ?nth_list_set by (rewrite ?list_set_length; lia); try (destruct (Nat.eqb_spec (n + k) (n - gtarget g - 1)); try lia); rewrite ?orb_false_r, ?orb_true_r; reflexivity.
Qed.
Lemma parity_row_spec n gs : below n gs -> length (parity_row n gs) = 2 * n /\
  forall v, xs (fun k => nth k (parity_row n gs) false && v k) (2 * n) = sf n (vec_of n gs) v.
Proof.
  intros Hb. unfold parity_row. destruct (parity_row_gen n gs Hb (repeat false (2 * n)) (repeat_length _ _)) as [HL HF]. split; [exact HL|].
  match type of HL with length ?X = _ => set (r' := X) in * end.
  intros v. transitivity (xs (fun k => nth k r' false && v k) (n + n)); [f_equal; lia|]. rewrite xs_app, <- xs_xor. unfold sf. apply xs_ext. intros k Hk. destruct (HF k Hk) as [Ez Ex]. rewrite Ez, Ex.
  rewrite !nth_repeat. cbn [orb]. unfold vec_of. destruct (Nat.ltb_spec k n); [|lia]. destruct (Nat.ltb_spec (n + k) n); [lia|]. destruct (Nat.ltb_spec (n + k) (2 * n)); [|lia].
  replace (2 * n - (n + k) - 1) with (n - k - 1) by lia. apply xorb_comm.
Qed.

(** ---- vectors back to strings ---- *)
Lemma rev_seq_map n : rev (seq 0 n) = map (fun t => n - 1 - t) (seq 0 n).
Proof.
  apply nth_ext with 0 0; [rewrite rev_length, map_length; reflexivity|]. intros i Hi. rewrite rev_length, seq_length in Hi.
  rewrite rev_nth by (rewrite seq_length; exact Hi). rewrite seq_length, seq_nth by lia. rewrite (nth_map_in _ _ i 0) by (rewrite seq_length; exact Hi). rewrite seq_nth by exact Hi. lia.
Qed.
Lemma pauli_of_vec_spec n v : length v = 2 * n ->
  exists gs, pauli_of_vec n v = Ok gs /\ canonical_pauli gs /\ below n gs /\ forall k, nth k v false = vec_of n gs k.
Proof.
  intros HL. unfold pauli_of_vec. rewrite rev_seq_map.
  set (body := fun j gs => match pauli_letter n v j with None => Ok gs | Some l => do g <- make_gate l (n - j - 1) (n - j - 1) 0; Ok (gs ++ [g])%list end).
  assert (H : forall m, m <= n -> exists gs, foreach (map (fun t => n - 1 - t) (seq 0 m)) body [] = Ok gs /\ canonical_pauli gs /\ below m gs /\
    forall t, t < m -> xb gs t = nth (n - t - 1) v false /\ zb gs t = nth (2 * n - t - 1) v false).
  { induction m as [|m IH]; intros Hm.
    - exists []. split; [reflexivity|]. split; [split; constructor|]. split; [intros ? []|intros; lia].
    - destruct (IH ltac:(lia)) as (gs & E & [HP HI] & Hb & HV). rewrite seq_S, map_app, foreach_app, E. cbn [Nat.add map bind foreach]. unfold body.
      replace (n - (n - 1 - m) - 1) with m by lia.
      assert (HN : ~ In m (map gtarget gs)) by (intros Hin; apply in_map_iff in Hin; destruct Hin as (g & Eg & Hg); specialize (Hb g Hg); lia).
      assert (Hskip : xb gs m = false /\ zb gs m = false) by (split; [apply xb_notin, HN|apply zb_notin, HN]).
      assert (Happ : forall g, gtarget g = m -> (forall t, xb (gs ++ [g]) t = xorb (xb gs t) (Nat.eqb t m && lx (glabel g))) /\ (forall t, zb (gs ++ [g]) t = xorb (zb gs t) (Nat.eqb t m && lz (glabel g)))).
      { intros g Eg. unfold xb at 1, zb at 1. split; intros t; rewrite existsb_app; fold (xb gs t) (zb gs t); cbn [existsb]; rewrite orb_false_r, Eg, (Nat.eqb_sym t);
          destruct (Nat.eqb_spec m t) as [<-|]; cbn [andb]; rewrite ?orb_false_r, ?xorb_false_r; try reflexivity; rewrite ?(proj1 Hskip), ?(proj2 Hskip); cbn [orb]; rewrite xorb_false_l; reflexivity. }
      assert (Hmake : forall l, is_pauli_label l = true -> lx l = nth (n - m - 1) v false -> lz l = nth (2 * n - m - 1) v false ->
        exists gs', (do s' <- (do g <- make_gate l m m 0; Ok (gs ++ [g])%list); Ok s') = Ok gs' /\ canonical_pauli gs' /\ below (S m) gs' /\
          forall t, t < S m -> xb gs' t = nth (n - t - 1) v false /\ zb gs' t = nth (2 * n - t - 1) v false).
      { intros l Hl Hx Hz. destruct (pauli_make l m Hl) as (g & Eg & Hg & El & Et & _). rewrite Eg. cbn [bind]. exists (gs ++ [g])%list. split; [reflexivity|].
        split; [split|split].
        - apply Forall_app. split; [exact HP|constructor; [exact Hg|constructor]].
        - rewrite map_app. cbn [map]. rewrite Et. apply increasing_snoc; [exact HI|]. intros y Hy. apply in_map_iff in Hy. destruct Hy as (g' & <- & Hg'). apply Hb, Hg'.
        - intros x Hx'. apply in_app_or in Hx'. destruct Hx' as [Hx'|[<-|[]]]; [specialize (Hb x Hx'); lia|lia].
        - intros t Ht. destruct (Happ g Et) as [A1 A2]. rewrite A1, A2, El. destruct (Nat.eqb_spec t m) as [->|].
          + rewrite (proj1 Hskip), (proj2 Hskip), !xorb_false_l. cbn [andb]. auto.
          + cbn [andb]. rewrite !xorb_false_r. apply HV. lia. }
      assert (Hn1 : n - 1 - m = n - m - 1) by lia. assert (Hn2 : n - 1 - m + n = 2 * n - m - 1) by lia.
      unfold pauli_letter. rewrite Hn2, Hn1. destruct (nth (n - m - 1) v false) eqn:Ex, (nth (2 * n - m - 1) v false) eqn:Ez; try (apply Hmake; reflexivity).
      exists gs. cbn [bind]. split; [reflexivity|]. split; [split; assumption|]. split; [intros x Hx; specialize (Hb x Hx); lia|].
      intros t Ht. destruct (Nat.eq_dec t m) as [->|]; [rewrite Ex, Ez; exact Hskip|apply HV; lia]. }
  destruct (H n (le_n n)) as (gs & E & HC & Hb & HV). exists gs. split; [exact E|]. split; [exact HC|]. split; [exact Hb|].
  intros k. unfold vec_of. destruct (Nat.ltb_spec k n).
  - destruct (HV (n - k - 1) ltac:(lia)) as [Ex _]. rewrite Ex. f_equal. lia.
  - destruct (Nat.ltb_spec k (2 * n)).
    + destruct (HV (2 * n - k - 1) ltac:(lia)) as [_ Ez]. rewrite Ez. f_equal. lia.
    + apply nth_overflow. lia.
Qed.
Lemma canonical_str gs : canonical_pauli gs -> str gs.
Proof.
  intros [HP HI]. split; [exact HP|]. clear HP. induction (map gtarget gs) as [|x l IH]; [constructor|]. destruct HI as [H1 H2]. constructor; [intros Hin; specialize (H1 x Hin); lia|apply IH, H2].
Qed.
Lemma vec_above n gs k : 2 * n <= k -> vec_of n gs k = false.
Proof. intros H. unfold vec_of. destruct (Nat.ltb_spec k n); [lia|]. destruct (Nat.ltb_spec k (2 * n)); [lia|reflexivity]. Qed.
