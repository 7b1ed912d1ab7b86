(** apply_matrix, apply_sparse_matrix and gate/circuit/operator matrices. *)
From Coq Require Import Reals String List Arith Lia Bool Lra Sorting.Sorted.
From Verif Require Import CBase Result Bits Spec GateModel ComputerModel CircuitModel OperatorModel SparseModel OpSpec
  ApplyProofs SafeProofs GateProofs LibProofs CleanProofs SimProofs PauliProofs SparseProofs.
Import ListNotations.

Definition stored (m : smat) (I J : nat) : Prop := exists r x, In (I, r) m /\ In (J, x) r.
Lemma amp_zeros N I : amp (zeros N) I = C0.
Proof. unfold amp, zeros. revert I; induction N; destruct I; cbn; auto. Qed.
Lemma zeros_length N : length (zeros N) = N.
Proof. unfold zeros. apply repeat_length. Qed.

Lemma row_loop psi I r : forall v, I < length v -> (forall J x, In (J, x) r -> J < length psi) ->
  exists v', foreach r (fun j v => do x <- vget psi (fst j); do y <- vget v I; vset v I (y + snd j * x)%C) v = Ok v' /\ length v' = length v /\
  forall K, nth K v' C0 = if K =? I then (nth I v C0 + Csum (fun j => (snd j * nth (fst j) psi C0)%C) r)%C else nth K v C0.
Proof.
  induction r as [|[J x] r IH]; intros v HI HJ; cbn [foreach].
  - exists v. split; [reflexivity|]. split; [reflexivity|]. intros K. rewrite Csum_nil. destruct (Nat.eqb_spec K I); [subst; ring|reflexivity].
  - cbn [fst snd]. rewrite (vget_ok psi J C0) by (apply (HJ J x); left; reflexivity). cbn [bind]. rewrite (vget_ok v I C0) by exact HI. cbn [bind].
    rewrite vset_ok by exact HI. cbn [bind].
    destruct (IH (list_set v I (nth I v C0 + x * nth J psi C0)%C)) as (v' & E & L & H).
    + rewrite list_set_length; exact HI.
    + intros J' x' H'. apply (HJ J' x'); right; exact H'.
    + exists v'. split; [exact E|]. rewrite list_set_length in L. split; [exact L|]. intros K. rewrite H, !nth_list_set by exact HI. rewrite Nat.eqb_refl, Csum_cons. cbn [fst snd].
      destruct (K =? I); [ring|reflexivity].
Qed.
Lemma mat_loop psi N M : length psi = N -> wfm M -> (forall I J, stored M I J -> I < N /\ J < N) -> forall v, length v = N ->
  (forall I, In I (map fst M) -> nth I v C0 = C0) ->
  exists v', foreach M (fun i v => foreach (snd i) (fun j v => do x <- vget psi (fst j); do y <- vget v (fst i); vset v (fst i) (y + snd j * x)%C) v) v = Ok v' /\ length v' = N /\
  forall K, nth K v' C0 = match mfind K M with Some r => Csum (fun j => (snd j * nth (fst j) psi C0)%C) r | None => nth K v C0 end.
Proof.
  intros HP. induction M as [|[I r] M IH]; intros HW HS v HL HZ; cbn [foreach].
  - exists v. split; [reflexivity|]. split; [exact HL|]. reflexivity.
  - destruct HW as [HW1 HW2]. apply ksorted_notin in HW1 as [Hn HW1]. inversion HW2; subst. cbn [fst snd] in *.
    assert (HROW : exists v1, foreach r (fun j v => do x <- vget psi (fst j); do y <- vget v I; vset v I (y + snd j * x)%C) v = Ok v1 /\ length v1 = length v /\
       forall K, nth K v1 C0 = if K =? I then Csum (fun j => (snd j * nth (fst j) psi C0)%C) r else nth K v C0).
    { destruct r as [|[J x] r'].
      - exists v. split; [reflexivity|]. split; [reflexivity|]. intros K. rewrite Csum_nil. destruct (Nat.eqb_spec K I); [subst; apply HZ; left; reflexivity|reflexivity].
      - destruct (row_loop psi I ((J, x) :: r') v) as (v1 & E1 & L1 & H1').
        + rewrite HL. apply (HS I J). exists ((J, x) :: r'), x. split; left; reflexivity.
        + intros J' x' H'. apply (HS I J'). exists ((J, x) :: r'), x'. split; [left; reflexivity|exact H'].
        + exists v1. split; [exact E1|]. split; [exact L1|]. intros K. rewrite H1'. destruct (Nat.eqb_spec K I); [|reflexivity].
          rewrite (HZ I) by (left; reflexivity). ring. }
    destruct HROW as (v1 & E1 & L1 & H1'). rewrite E1. cbn [bind].
    destruct (IH (conj HW1 H2)) with (v := v1) as (v' & E & L & H).
    + intros I' J' (r' & x' & A & B). apply (HS I' J'). exists r', x'. split; [right; exact A|exact B].
    + congruence.
    + intros I' HI'. rewrite H1'. destruct (Nat.eqb_spec I' I); [subst; exfalso; apply mfind_key in Hn; contradiction|]. apply HZ; right; exact HI'.
    + exists v'. split; [exact E|]. split; [exact L|]. intros K. rewrite H, H1'. cbn [mfind]. destruct (Nat.eqb_spec K I); [subst; rewrite Hn; reflexivity|reflexivity].
Qed.
Lemma stored_row M I J : wfm M -> (exists x, In (J, x) (row M I)) -> stored M I J.
Proof.
  intros HW (x & H). unfold row in H. destruct (mfind I M) as [r|] eqn:E; [|destruct H]. apply mfind_in in E; [|apply HW]. exists r, x; auto.
Qed.
Lemma stored_nonzero M I J : wfm M -> sget M I J <> C0 -> stored M I J.
Proof.
  intros HW H. apply stored_row; [exact HW|]. rewrite sget_row in H. unfold vec_get in H. destruct (mfind J (row M I)) as [x|] eqn:E; [|congruence].
  exists x. apply mfind_in in E; [exact E|apply wfm_row, HW].
Qed.
Lemma apply_sparse_ok q M : wf_computer q -> wfm M -> (forall I J, stored M I J -> I < nbasis q /\ J < nbasis q) ->
  exists q', apply_sparse_matrix q M = Ok q' /\ wf_computer q' /\ nqubit q' = nqubit q /\
  forall I, amp (coeff q') I = Csum (fun J => (sget M I J * amp (coeff q) J)%C) (seq 0 (2 ^ nqubit q)).
Proof.
  intros HQ HW HS. unfold apply_sparse_matrix.
  destruct (mat_loop (coeff q) (nbasis q) M) with (v := zeros (nbasis q)) as (v' & E & L & H).
  - destruct HQ as (H & _). exact H.
  - exact HW.
  - exact HS.
  - apply zeros_length.
  - intros; apply amp_zeros.
  - rewrite E. cbn [bind]. exists (set_coeff q v'). split; [reflexivity|]. split; [|split; [reflexivity|]].
    + destruct HQ as (A & B). split; [exact L|]. exact B.
    + intros I. cbn [coeff set_coeff]. unfold amp at 1. rewrite H.
      assert (HR : Csum (fun J => (sget M I J * amp (coeff q) J)%C) (seq 0 (2 ^ nqubit q)) = Csum (fun j => (snd j * nth (fst j) (coeff q) C0)%C) (row M I)).
      { rewrite (row_sum (row M I) (fun J => nth J (coeff q) C0) (2 ^ nqubit q)).
        - apply Csum_ext; intros; rewrite sget_row; reflexivity.
        - apply wfm_row, HW.
        - intros k Hk. apply (HS I k). apply stored_nonzero; [exact HW|]. rewrite sget_row; exact Hk. }
      rewrite HR. unfold row. destruct (mfind I M); [reflexivity|]. rewrite Csum_nil. apply amp_zeros.
Qed.

(** dense matrices *)
Lemma inner_product_ok a : forall b acc, length a <= length b ->
  inner_product a b acc = Ok (acc + Csum (fun k => (Cconj (nth k a C0) * nth k b C0)%C) (seq 0 (length a)))%C.
Proof.
  induction a as [|x a IH]; intros b acc H; cbn [inner_product length seq].
  - rewrite Csum_nil. f_equal; ring.
  - destruct b as [|y b]; cbn in H; [lia|]. rewrite IH by lia. rewrite Csum_cons. cbn [nth]. rewrite <- seq_shift, Csum_map. cbn [nth]. f_equal; ring.
Qed.
Lemma apply_matrix_ok q M : wf_computer q -> length M = nbasis q -> Forall (fun r => length r = nbasis q) M ->
  exists q', apply_matrix q M = Ok q' /\ wf_computer q' /\ nqubit q' = nqubit q /\
  forall I, I < nbasis q -> amp (coeff q') I = Csum (fun J => (Cconj (nth J (nth I M []) C0) * amp (coeff q) J)%C) (seq 0 (2 ^ nqubit q)).
Proof.
  intros HQ HL HR. unfold apply_matrix.
  assert (HG : forall k v, length v = nbasis q -> k <= nbasis q -> exists v', foreach (seq 0 k) (fun I v => do rw <- vget M I; do x <- inner_product rw (coeff q) C0; vset v I x) v = Ok v' /\ length v' = nbasis q /\
     forall I, I < k -> nth I v' C0 = Csum (fun J => (Cconj (nth J (nth I M []) C0) * amp (coeff q) J)%C) (seq 0 (2 ^ nqubit q))).
  { induction k as [|k IH]; intros v Hv Hk.
    - exists v. split; [reflexivity|]. split; [exact Hv|]. intros; lia.
    - rewrite seq_S, foreach_app. destruct (IH v Hv ltac:(lia)) as (v1 & E1 & L1 & H1). rewrite E1. cbn [bind foreach Nat.add].
      rewrite (vget_ok M k []) by lia. cbn [bind].
      assert (HRk : length (nth k M []) = nbasis q). { rewrite Forall_forall in HR. apply HR, nth_In. lia. }
      destruct HQ as (HC & _). rewrite inner_product_ok by (rewrite HRk, HC; reflexivity). cbn [bind]. rewrite vset_ok by lia. cbn [bind].
      eexists; split; [reflexivity|]. rewrite list_set_length. split; [exact L1|]. intros I HI. rewrite nth_list_set by lia.
      destruct (Nat.eqb_spec I k); [|apply H1; lia]. subst I. rewrite Cadd_0_l, HRk. reflexivity. }
  destruct (HG (nbasis q) (zeros (nbasis q)) (zeros_length _) (Nat.le_refl _)) as (v' & E & L & H).
  rewrite E. cbn [bind]. exists (set_coeff q v'). split; [reflexivity|]. split; [|split; [reflexivity|exact H]].
  destruct HQ as (A & B). split; [exact L|exact B].
Qed.

(** *** Gate.sparse_matrix *)
Definition keys_in (N : nat) (m : smat) : Prop := forall I J, stored m I J -> I < N /\ J < N.
Lemma stored_sset m I J c I' J' : wfm m -> stored (sset m I J c) I' J' -> (I' = I /\ J' = J) \/ stored m I' J'.
Proof.
  intros HW (r & x & H1 & H2). assert (HW' := wfm_sset m I J c HW). apply mfind_in in H1; [|apply HW'].
  unfold sset in H1. rewrite mfind_mput in H1. destruct (Nat.eqb_spec I' I) as [->|N].
  - inversion H1; subst. assert (HS : ksorted (mput J c (row m I))) by (apply ksorted_mput, wfm_row, HW).
    apply mfind_in in H2; [|exact HS]. rewrite mfind_mput in H2. destruct (Nat.eqb_spec J' J) as [->|NJ]; [left; auto|right].
    apply stored_row; [exact HW|]. exists x. apply mfind_in; [apply wfm_row, HW|exact H2].
  - right. apply mfind_in in H1; [|apply HW]. exists r, x; auto.
Qed.
Lemma stored_serase m I J I' J' : wfm m -> stored (serase m I J) I' J' -> stored m I' J'.
Proof.
  intros HW (r & x & H1 & H2). assert (HW' := wfm_serase m I J HW). apply mfind_in in H1; [|apply HW'].
  unfold serase in H1. rewrite mfind_mput in H1. destruct (Nat.eqb_spec I' I) as [->|N].
  - inversion H1; subst. apply mfind_in in H2; [|apply ksorted_merase, wfm_row, HW]. rewrite mfind_merase in H2 by (apply wfm_row, HW).
    destruct (_ =? _); [discriminate|]. apply stored_row; [exact HW|]. exists x. apply mfind_in; [apply wfm_row, HW|exact H2].
  - apply mfind_in in H1; [|apply HW]. exists r, x; auto.
Qed.
Lemma keys_in_sset N m I J c : wfm m -> keys_in N m -> I < N -> J < N -> keys_in N (sset m I J c).
Proof. intros HW HK HI HJ I' J' HS. apply stored_sset in HS; [|exact HW]. destruct HS as [[-> ->]|HS]; [auto|apply HK, HS]. Qed.
(** one column loop *)
Lemma col_loop N (cond : nat -> bool) (f : nat -> nat) x : (forall I, I < N -> f I < N) -> forall m, wfm m -> keys_in N m ->
  let m' := fold_left (fun m I => if cond I then sset m (f I) I x else m) (seq 0 N) m in
  wfm m' /\ keys_in N m' /\ forall J I, sget m' J I = if (I <? N) && cond I && (J =? f I) then x else sget m J I.
Proof.
  intros Hf m HW HK.
  assert (HG : forall k, k <= N -> let m' := fold_left (fun m I => if cond I then sset m (f I) I x else m) (seq 0 k) m in
     wfm m' /\ keys_in N m' /\ forall J I, sget m' J I = if (I <? k) && cond I && (J =? f I) then x else sget m J I).
  { induction k as [|k IH]; intros Hk; [split; [exact HW|split; [exact HK|reflexivity]]|].
    cbv zeta. rewrite seq_S, fold_left_app. cbn [fold_left Nat.add]. destruct (IH ltac:(lia)) as (A & B & D). cbv zeta in A, B, D.
    set (m1 := fold_left _ (seq 0 k) m) in *. destruct (cond k) eqn:EC.
    - split; [apply wfm_sset, A|]. split; [apply keys_in_sset; [exact A|exact B|apply Hf; lia|lia]|].
      intros J I. rewrite sget_sset, D. unfold at2.
      destruct (Nat.eqb_spec I k) as [->|NI].
      + rewrite EC. destruct (Nat.ltb_spec k (S k)); [|lia]. destruct (Nat.ltb_spec k k); [lia|]. cbn [andb]. rewrite andb_true_r. destruct (J =? f k); reflexivity.
      + rewrite andb_false_r. destruct (Nat.ltb_spec I k), (Nat.ltb_spec I (S k)); try lia; reflexivity.
    - split; [exact A|]. split; [exact B|]. intros J I. rewrite D. destruct (Nat.ltb_spec I k), (Nat.ltb_spec I (S k)); try lia; try reflexivity.
      assert (I = k) by lia. subst. rewrite EC. reflexivity. }
  exact (HG N (Nat.le_refl _)).
Qed.
Lemma keys_in_nil N : keys_in N [].
Proof. intros I J (r & x & [] & _). Qed.
(** the value of one (i,j) step *)
Definition put_if (t : R) (x : C) (b : bool) (old : C) : C := if b then (if Rltb t (Cabs x) then x else old) else old.
Lemma step_loop N (cond : nat -> bool) (f : nat -> nat) x : (forall I, I < N -> f I < N) -> forall m, wfm m -> keys_in N m ->
  let m' := if Rltb thr14 (Cabs x) then fold_left (fun m I => if cond I then sset m (f I) I x else m) (seq 0 N) m else m in
  wfm m' /\ keys_in N m' /\ forall J I, sget m' J I = put_if thr14 x ((I <? N) && cond I && (J =? f I)) (sget m J I).
Proof.
  intros Hf m HW HK. cbv zeta. unfold put_if. destruct (Rltb _ _).
  - apply (col_loop N cond f x Hf m HW HK).
  - split; [exact HW|]. split; [exact HK|]. intros J I. destruct (_ && _); reflexivity.
Qed.
Lemma foldk {A S} (P : S -> Prop) (step : A -> S -> S) (l : list A) (s : S) : (forall a s, In a l -> P s -> P (step a s)) -> P s -> P (fold_left (fun s a => step a s) l s).
Proof. revert s; induction l as [|a l IH]; intros s H HP; [exact HP|]. cbn. apply IH; [intros; apply H; [right; assumption|assumption]|]. apply H; [left; reflexivity|exact HP]. Qed.

Lemma ket_upd I K t b : ket I (upd K t b) = if (I =? upd K t b) then C1 else C0.
Proof. unfold ket. rewrite Nat.eqb_sym. reflexivity. Qed.


Lemma pairs_loop N (x : nat -> nat -> C) (cond : nat -> nat -> bool) (f : nat -> nat -> nat) l1 l2 :
  (forall i I, I < N -> f i I < N) ->
  let m' := fold_left (fun m i => fold_left (fun m j => if Rltb thr14 (Cabs (x i j)) then
      fold_left (fun m I => if cond j I then sset m (f i I) I (x i j) else m) (seq 0 N) m else m) l2 m) l1 [] in
  wfm m' /\ keys_in N m' /\ forall J I, sget m' J I =
    fold_left (fun old i => fold_left (fun old j => put_if thr14 (x i j) ((I <? N) && cond j I && (J =? f i I)) old) l2 old) l1 C0.
Proof.
  intros Hf.
  assert (HG : forall m (F : nat -> nat -> C), wfm m -> keys_in N m -> (forall J I, sget m J I = F J I) ->
    let m' := fold_left (fun m i => fold_left (fun m j => if Rltb thr14 (Cabs (x i j)) then
      fold_left (fun m I => if cond j I then sset m (f i I) I (x i j) else m) (seq 0 N) m else m) l2 m) l1 m in
    wfm m' /\ keys_in N m' /\ forall J I, sget m' J I =
    fold_left (fun old i => fold_left (fun old j => put_if thr14 (x i j) ((I <? N) && cond j I && (J =? f i I)) old) l2 old) l1 (F J I)).
  { induction l1 as [|i l1 IH]; intros m F HW HK HF; [split; [exact HW|split; [exact HK|exact HF]]|].
    cbn [fold_left]. 
    assert (HI : forall l m (F : nat -> nat -> C), wfm m -> keys_in N m -> (forall J I, sget m J I = F J I) ->
      let m' := fold_left (fun m j => if Rltb thr14 (Cabs (x i j)) then
         fold_left (fun m I => if cond j I then sset m (f i I) I (x i j) else m) (seq 0 N) m else m) l m in
      wfm m' /\ keys_in N m' /\ forall J I, sget m' J I = fold_left (fun old j => put_if thr14 (x i j) ((I <? N) && cond j I && (J =? f i I)) old) l (F J I)).
    { clear m F HW HK HF IH. induction l as [|j l IHl]; intros m F HW HK HF; [split; [exact HW|split; [exact HK|exact HF]]|].
      cbn [fold_left]. destruct (step_loop N (cond j) (f i) (x i j) (Hf i) m HW HK) as (A & B & D). cbv zeta in A, B, D.
      apply (IHl _ (fun J I => put_if thr14 (x i j) ((I <? N) && cond j I && (J =? f i I)) (F J I)) A B).
      intros J I. rewrite D, HF. reflexivity. }
    destruct (HI l2 m F HW HK HF) as (A & B & D). cbv zeta in A, B, D.
    apply (IH _ (fun J I => fold_left (fun old j => put_if thr14 (x i j) ((I <? N) && cond j I && (J =? f i I)) old) l2 (F J I)) A B D). }
  apply (HG [] (fun _ _ => C0)); [apply wfm_nil|apply keys_in_nil|reflexivity].
Qed.
Lemma put_if_true t x : put_if t x true C0 = drop t x.
Proof. reflexivity. Qed.
Lemma eqb_upd_l J I t b : bit J t <> b -> (J =? upd I t b) = false.
Proof. intros H. apply Nat.eqb_neq. intros ->. apply H, bit_upd_same. Qed.

Lemma gate_sparse_1q n g : in_range n g -> gtarget g = gcontrol g ->
  exists m, gate_sparse n g = Ok m /\ wfm m /\ keys_in (2 ^ n) m /\ forall J I, I < 2 ^ n -> sget m J I = drop thr14 (gate_act g (ket I) J).
Proof.
  intros [Ht Hc] E. unfold gate_sparse. destruct (Nat.leb_spec n (gtarget g)); [lia|]. destruct (Nat.leb_spec n (gcontrol g)); [lia|].
  rewrite <- E, Nat.eqb_refl. eexists; split; [reflexivity|]. unfold gate_act. rewrite <- E, Nat.eqb_refl. set (t := gtarget g) in *. set (M := gmat g).
  destruct (pairs_loop (2 ^ n) M (fun j I => b2n (bit I t) =? j) (fun i I => upd I t (i =? 1)) (seq 0 2) (seq 0 2)) as (A & B & D).
  { intros; apply upd_lt; assumption. }
  split; [exact A|]. split; [exact B|]. intros J I HI. etransitivity; [exact (D J I)|]. clear A B D. cbn [seq fold_left]. unfold act1.
  destruct (Nat.ltb_spec I (2 ^ n)); [|lia]. cbn [andb]. rewrite !ket_upd.
  assert (HS : forall b b', bit I t = b -> bit J t = b' -> (I =? upd J t b) = (J =? upd I t b')).
  { intros b b' HB HB'. destruct (Nat.eqb_spec I (upd J t b)) as [E1|E1], (Nat.eqb_spec J (upd I t b')) as [E2|E2]; try reflexivity; exfalso.
    - apply E2. rewrite E1, upd_upd. symmetry. apply upd_id'. exact HB'.
    - apply E1. rewrite E2, upd_upd. symmetry. apply upd_id'. exact HB. }
  destruct (bit I t) eqn:BI, (bit J t) eqn:BJ; cbn [b2n Nat.eqb andb];
    rewrite ?(eqb_upd_l J I t true) by congruence; rewrite ?(eqb_upd_l J I t false) by congruence;
    rewrite ?(eqb_upd_l I J t true) by congruence; rewrite ?(eqb_upd_l I J t false) by congruence;
    rewrite ?(HS _ _ eq_refl eq_refl);
    cbn [put_if]; match goal with |- context [J =? ?y] => destruct (J =? y) end; unfold put_if;
    match goal with |- _ = drop _ ?v => first [replace v with C0 by ring; rewrite drop_0; reflexivity | replace v with (M 0 0) by ring; reflexivity | replace v with (M 0 1) by ring; reflexivity | replace v with (M 1 0) by ring; reflexivity | replace v with (M 1 1) by ring; reflexivity] end.
Qed.
Lemma gate_sparse_2q n g : in_range n g -> gtarget g <> gcontrol g ->
  exists m, gate_sparse n g = Ok m /\ wfm m /\ keys_in (2 ^ n) m /\ forall J I, I < 2 ^ n -> sget m J I = drop thr14 (gate_act g (ket I) J).
Proof.
  intros [Ht Hc] E. unfold gate_sparse. destruct (Nat.leb_spec n (gtarget g)); [lia|]. destruct (Nat.leb_spec n (gcontrol g)); [lia|].
  assert (E' : (gtarget g =? gcontrol g) = false) by (apply Nat.eqb_neq; exact E). unfold gate_act. rewrite E'. eexists; split; [reflexivity|].
  set (t := gtarget g) in *. set (c := gcontrol g) in *. set (M := gmat g).
  destruct (pairs_loop (2 ^ n) M (fun j I => (2 * b2n (bit I c) + b2n (bit I t)) =? j) (fun i I => upd (upd I t (Nat.odd i)) c (Nat.odd (i / 2))) (seq 0 4) (seq 0 4)) as (A & B & D).
  { intros; apply upd_lt; [assumption|]. apply upd_lt; assumption. }
  split; [exact A|]. split; [exact B|]. intros J I HI. etransitivity; [exact (D J I)|]. clear A B D. cbn [seq fold_left]. unfold act2.
  destruct (Nat.ltb_spec I (2 ^ n)); [|lia]. cbn [andb]. unfold ket.
  assert (HN : forall a b, (bit J c <> a \/ bit J t <> b) -> (J =? upd (upd I t b) c a) = false).
  { intros a b HH. apply Nat.eqb_neq. intros ->. destruct HH as [HH|HH]; apply HH; [apply bit_upd_same|]. rewrite bit_upd_other by exact E. apply bit_upd_same. }
  assert (HN' : forall a b, (bit I c <> a \/ bit I t <> b) -> (upd (upd J c a) t b =? I) = false).
  { intros a b HH. apply Nat.eqb_neq. intros HE. rewrite <- HE in HH. destruct HH as [HH|HH]; apply HH; [|apply bit_upd_same]. rewrite bit_upd_other by (intros HH'; apply E; symmetry; exact HH'). apply bit_upd_same. }
  assert (HS : forall a b a' b', bit I c = a -> bit I t = b -> bit J c = a' -> bit J t = b' -> (upd (upd J c a) t b =? I) = (J =? upd (upd I t b') c a')).
  { intros a b a' b' A1 A2 A3 A4. destruct (Nat.eqb_spec (upd (upd J c a) t b) I) as [E1|E1], (Nat.eqb_spec J (upd (upd I t b') c a')) as [E2|E2]; try reflexivity; exfalso.
    - apply E2. rewrite <- E1, upd_upd. rewrite (upd_comm (upd J c a) t b') by exact E. rewrite upd_upd. rewrite (upd_id' J c a' A3). symmetry; apply upd_id'; exact A4.
    - apply E1. rewrite E2, upd_upd. rewrite (upd_comm (upd I t b') c a) by (intros HH'; apply E; symmetry; exact HH'). rewrite upd_upd. rewrite (upd_id' I t b A2). apply upd_id'; exact A1. }
  change (Nat.odd 0) with false. change (Nat.odd 1) with true. change (Nat.odd 2) with false. change (Nat.odd 3) with true.
  change (Nat.odd (0 / 2)) with false. change (Nat.odd (1 / 2)) with false. change (Nat.odd (2 / 2)) with true. change (Nat.odd (3 / 2)) with true.
  destruct (bit I c) eqn:BIc, (bit I t) eqn:BIt, (bit J c) eqn:BJc, (bit J t) eqn:BJt; cbn [b2n Nat.mul Nat.add Nat.eqb andb];
    rewrite ?(HN true true), ?(HN true false), ?(HN false true), ?(HN false false) by (first [left; congruence|right; congruence]);
    rewrite ?(HN' true true), ?(HN' true false), ?(HN' false true), ?(HN' false false) by (first [left; congruence|right; congruence]);
    rewrite (HS _ _ _ _ eq_refl eq_refl eq_refl eq_refl);
    match goal with |- context [J =? ?y] => destruct (J =? y) end; unfold put_if;
    match goal with |- _ = drop _ ?v => first [replace v with C0 by ring; rewrite drop_0; reflexivity
      | match v with context [(M ?i ?j * C1)%C] => replace v with (M i j) by ring; reflexivity end] end.
Qed.
Lemma gate_sparse_ok n g : in_range n g ->
  exists m, gate_sparse n g = Ok m /\ wfm m /\ keys_in (2 ^ n) m /\ forall J I, I < 2 ^ n -> sget m J I = drop thr14 (gate_act g (ket I) J).
Proof. intros H. destruct (Nat.eq_dec (gtarget g) (gcontrol g)); [apply gate_sparse_1q|apply gate_sparse_2q]; assumption. Qed.
Lemma gate_sparse_throws n g : ~ in_range n g -> gate_sparse n g = Throw RuntimeErr.
Proof.
  intros H. unfold gate_sparse. destruct (Nat.leb_spec n (gtarget g)); [reflexivity|]. destruct (Nat.leb_spec n (gcontrol g)); [reflexivity|].
  exfalso; apply H; split; assumption.
Qed.
