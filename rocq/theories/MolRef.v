(** Reference occupations. *)
From Coq Require Import Reals String List Arith Bool Lia Lra Permutation.
From Verif Require Import CBase Result GradModel GradProofs MolModel.
Import ListNotations.
Local Open Scope nat_scope.

(** ---- create_external_mol ---- *)
Lemma writes_spec (pos : nat -> nat) k : forall (l : list nat), (forall i, i < k -> pos i < length l) ->
  exists l', foreach (seq 0 k) (fun i r => write_one (pos i) r) l = Ok l' /\ length l' = length l /\ forall j, nth j l' 0 = if existsb (fun i => j =? pos i) (seq 0 k) then 1 else nth j l 0.
Proof.
  induction k as [|k IH]; intros l H.
  - exists l. repeat split.
  - destruct (IH l) as (l1 & E & L & N); [intros i Hi; apply H; lia|]. rewrite seq_S, foreach_app, E. cbn [bind foreach Nat.add]. unfold write_one. pose proof (H k ltac:(lia)) as Hk. rewrite <- L in Hk. destruct (Nat.ltb_spec (pos k) (length l1)); [|lia]. cbn [bind].
    exists (list_set l1 (pos k) 1). split; [reflexivity|]. split; [now rewrite list_set_len|]. intros j. rewrite (list_set_nth l1 (pos k) 1 0 ltac:(lia) j), N. rewrite existsb_app. cbn [existsb]. rewrite orb_false_r. destruct (Nat.eqb_spec j (pos k)); [now rewrite orb_true_r|now rewrite orb_false_r].
Qed.
Lemma writes_throw (pos : nat -> nat) k : forall (l : list nat), (forall i j, i < j -> pos i < pos j) -> k <> 0 -> length l <= pos (k - 1) ->
  foreach (seq 0 k) (fun i r => write_one (pos i) r) l = Throw (PyError "IndexError").
Proof.
  intros l M. induction k as [|k IH]; intros K H; [lia|]. replace (S k - 1) with k in H by lia. rewrite seq_S, foreach_app. destruct (Nat.eq_dec k 0) as [->|N0].
  - cbn [seq foreach bind Nat.add]. unfold write_one. destruct (Nat.ltb_spec (pos 0) (length l)); [lia|reflexivity].
  - destruct (Nat.le_gt_cases (length l) (pos (k - 1))) as [G|G]; [rewrite IH by assumption; reflexivity|].
    destruct (writes_spec pos k l) as (l1 & E & L & _); [intros i Hi; destruct (Nat.eq_dec i (k - 1)) as [->|]; [exact G|]; pose proof (M i (k - 1)); lia|]. rewrite E. cbn [bind foreach Nat.add]. unfold write_one. rewrite L. destruct (Nat.ltb_spec (pos k) (length l)); [lia|reflexivity].
Qed.
Lemma existsb_even na j : existsb (fun i => j =? i * 2) (seq 0 na) = (Nat.even j && (j / 2 <? na))%bool.
Proof.
  apply eq_true_iff_eq. rewrite existsb_exists, andb_true_iff, Nat.ltb_lt, Nat.even_spec. split.
  - intros (i & Hi & E). apply in_seq in Hi. apply Nat.eqb_eq in E. subst j. split; [exists i; lia|]. rewrite Nat.div_mul by lia. lia.
  - intros [[i ->] L]. exists i. rewrite Nat.mul_comm, Nat.div_mul in L by lia. split; [apply in_seq; lia|]. apply Nat.eqb_eq. lia.
Qed.
Lemma existsb_odd nb j : existsb (fun i => j =? i * 2 + 1) (seq 0 nb) = (Nat.odd j && (j / 2 <? nb))%bool.
Proof.
  apply eq_true_iff_eq. rewrite existsb_exists, andb_true_iff, Nat.ltb_lt, Nat.odd_spec. split.
  - intros (i & Hi & E). apply in_seq in Hi. apply Nat.eqb_eq in E. subst j. split; [exists i; lia|]. rewrite Nat.add_comm, Nat.div_add by lia. cbn. lia.
  - intros [[i ->] L]. exists i. rewrite Nat.mul_comm, Nat.add_comm, Nat.div_add in L by lia. cbn in L. split; [apply in_seq; lia|]. apply Nat.eqb_eq. lia.
Qed.
Lemma external_ref_spec nso na nb : 2 * na <= nso + 1 -> 2 * nb <= nso ->
  exists ref, external_ref nso na nb = Ok ref /\ length ref = nso /\ forall j, nth j ref 0 = if (j / 2 <? if Nat.even j then na else nb) then 1 else 0.
Proof.
  intros Ha Hb. unfold external_ref. destruct (writes_spec (fun i => i * 2) na (repeat 0 nso)) as (r1 & E1 & L1 & N1); [intros i Hi; rewrite repeat_length; lia|]. rewrite repeat_length in L1. rewrite E1. cbn [bind].
  destruct (writes_spec (fun i => i * 2 + 1) nb r1) as (r2 & E2 & L2 & N2); [intros i Hi; rewrite L1; lia|]. exists r2. split; [exact E2|]. split; [congruence|]. intros j. rewrite N2, N1, existsb_odd, existsb_even, nth_repeat, <- Nat.negb_even. destruct (Nat.even j); cbn [negb andb]; reflexivity.
Qed.
Lemma external_ref_throw nso na nb : nso + 1 < 2 * na \/ nso < 2 * nb -> external_ref nso na nb = Throw (PyError "IndexError").
Proof.
  intros H. unfold external_ref. destruct (Nat.le_gt_cases (2 * na) (nso + 1)) as [L|G].
  - destruct (writes_spec (fun i => i * 2) na (repeat 0 nso)) as (r1 & E1 & L1 & _); [intros i Hi; rewrite repeat_length; lia|]. rewrite repeat_length in L1. rewrite E1. cbn [bind]. apply writes_throw; [intros; lia|lia|lia].
  - rewrite writes_throw; [reflexivity|intros; lia|lia|rewrite repeat_length; lia].
Qed.
(** ---- create_psi_mol ---- *)
Definition seen (irr : nat) (l : list (R * nat)) : nat := length (filter (fun o => Nat.eqb (snd o) irr) l).
Lemma hf_loop occ_a occ_b frz rest : forall done cnt ref es is,
  (forall irr, nth_error cnt irr = match nth_error frz irr with Some f => Some (f + seen irr done) | None => None end) ->
  (forall irr, seen irr rest <> 0 -> exists f ra rb, nth_error frz irr = Some f /\ nth_error occ_a irr = Some ra /\ nth_error occ_b irr = Some rb /\ f + seen irr (done ++ rest) <= length ra /\ f + seen irr (done ++ rest) <= length rb) ->
  exists cnt', foreach rest (fun oi st =>
    let irr := snd oi in
    do n <- py_get (fst st) irr;
    do ra <- py_get occ_a irr; do a <- py_get ra n;
    do rb <- py_get occ_b irr; do b <- py_get rb n;
    let ref := fst (fst (snd st)) in let es := snd (fst (snd st)) in let is := snd (snd st) in
    Ok (list_set (fst st) irr (n + 1), (((ref ++ [a]) ++ [b])%list, (es ++ [fst oi])%list, (is ++ [irr])%list))) (cnt, (ref, es, is)) =
  Ok (cnt', ((ref ++ flat_map (fun k => let irr := nth k (map snd rest) 0 in let p := nth irr frz 0 + seen irr (done ++ firstn k rest) in [nth p (nth irr occ_a []) 0; nth p (nth irr occ_b []) 0]) (seq 0 (length rest)))%list, (es ++ map fst rest)%list, (is ++ map snd rest)%list)).
Proof.
  induction rest as [|[e irr] rest IH]; intros done cnt ref es is HC HR; cbn [foreach].
  - exists cnt. cbn. now rewrite !app_nil_r.
  - assert (S1 : seen irr ((e, irr) :: rest) <> 0) by (unfold seen; cbn [filter snd]; rewrite Nat.eqb_refl; cbn; lia). destruct (HR irr S1) as (f & ra & rb & Ef & Ea & Eb & La & Lb).
    assert (SA : forall i l1 l2, seen i (l1 ++ l2) = seen i l1 + seen i l2) by (intros i l1 l2; unfold seen; rewrite filter_app, app_length; reflexivity).
    rewrite !SA in La, Lb. cbn [fst snd]. unfold py_get at 1. rewrite HC, Ef. cbn [bind]. unfold py_get at 1. rewrite Ea. cbn [bind].
    assert (NA : nth_error ra (f + seen irr done) = Some (nth (f + seen irr done) ra 0)) by (apply nth_error_nth'; lia). assert (NB : nth_error rb (f + seen irr done) = Some (nth (f + seen irr done) rb 0)) by (apply nth_error_nth'; lia).
    unfold py_get at 1. rewrite NA. cbn [bind]. unfold py_get at 1. rewrite Eb. cbn [bind]. unfold py_get at 1. rewrite NB. cbn [bind].
    assert (Lc : irr < length cnt) by (apply nth_error_Some; rewrite HC, Ef; discriminate).
    destruct (IH (done ++ [(e, irr)])%list (list_set cnt irr (f + seen irr done + 1)) ((ref ++ [nth (f + seen irr done) ra 0]) ++ [nth (f + seen irr done) rb 0])%list (es ++ [e])%list (is ++ [irr])%list) as (cnt' & EF).
    + intros i. rewrite SA. replace (seen i [(e, irr)]) with (if Nat.eqb irr i then 1 else 0) by (unfold seen; cbn [filter snd]; now destruct (Nat.eqb irr i)). destruct (Nat.eqb_spec irr i) as [<-|N].
      * rewrite Ef. assert (X : nth_error (list_set cnt irr (f + seen irr done + 1)) irr = Some (nth irr (list_set cnt irr (f + seen irr done + 1)) 0)) by (apply nth_error_nth'; rewrite list_set_len; exact Lc). rewrite X, (list_set_nth cnt irr _ 0 Lc irr), Nat.eqb_refl. f_equal. lia.
      * rewrite Nat.add_0_r, <- HC. destruct (Nat.lt_ge_cases i (length cnt)) as [L|G].
        -- assert (X : nth_error (list_set cnt irr (f + seen irr done + 1)) i = Some (nth i (list_set cnt irr (f + seen irr done + 1)) 0)) by (apply nth_error_nth'; rewrite list_set_len; exact L). rewrite X, (list_set_nth cnt irr _ 0 Lc i). destruct (Nat.eqb_spec i irr); [congruence|]. symmetry. now apply nth_error_nth'.
        -- rewrite !(proj2 (nth_error_None _ _)); [reflexivity| |]; rewrite ?list_set_len; lia.
    + intros i Hi. assert (Si : seen i ((e, irr) :: rest) <> 0) by (unfold seen in *; cbn [filter snd]; destruct (Nat.eqb irr i); cbn [length]; lia). destruct (HR i Si) as (f' & ra' & rb' & A & B & D & La' & Lb'). exists f', ra', rb'. rewrite <- app_assoc. cbn [app]. auto.
    + exists cnt'. cbn [fst snd] in EF. rewrite EF. f_equal. f_equal. f_equal; [f_equal|].
      * rewrite <- !app_assoc. f_equal. cbn [length seq flat_map map]. cbn [nth app firstn]. cbn [snd]. rewrite app_nil_r. rewrite (nth_error_nth _ _ 0 Ef), (nth_error_nth _ _ [] Ea), (nth_error_nth _ _ [] Eb). f_equal. f_equal. rewrite <- seq_shift, flat_map_concat_map, flat_map_concat_map, map_map. f_equal. apply map_ext. intros k. cbn [nth firstn]. rewrite <- app_assoc. reflexivity.
      * rewrite <- app_assoc. reflexivity.
      * rewrite <- app_assoc. reflexivity.
Qed.
