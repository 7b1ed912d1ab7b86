(** The QFT circuit of utils/qft.py. *)
From Coq Require Import Reals String List Arith Lia Bool Lra Psatz.
From Verif Require Import CBase Result Bits Spec GateModel ComputerModel SafeProofs GateProofs LibProofs CircuitModel PauliProofs GateEval QftSpec PyModel ThreeQubit.
Import ListNotations.
Local Open Scope C_scope.

Definition gcR (t c : nat) (x : R) : gate := let p := normalize_angle x (2 * PI) in mkGate "cR" t c (m_cR p) (Some (p, true)).
Definition gHd (t : nat) : gate := mkGate "H" t t m_H None.
Definition gSW (t c : nat) : gate := mkGate "SWAP" t c m_SWAP None.
Definition stage (na n : nat) : list gate := gHd na :: map (fun k => gcR na (na + k - 1) (2.0 * PI / 2 ^ k)) (seq 2 (n - 1)).
Fixpoint stages (na n : nat) : list gate := match n with O => [] | S m => stage na n ++ stages (S na) m end.
Definition swaps (na n m : nat) : list gate := map (fun i => gSW (i + na) (n - 1 - i + na)) (seq 0 m).

(** ---- the circuit as a list ---- *)
Lemma py_cR t c x : t <> c -> py_gate3 "cR" t c x = Ok (gcR t c x).
Proof. intros H. unfold py_gate3, make_gate. rewrite (neq_eqb _ _ H). reflexivity. Qed.
Lemma py_SW t c : t <> c -> py_gate2 "SWAP" t c = Ok (gSW t c).
Proof. intros H. unfold py_gate2, make_gate. rewrite (neq_eqb _ _ H). reflexivity. Qed.
Lemma foreach_snoc {X} (f : X -> gate) (b : X -> res gate) l : (forall x, In x l -> b x = Ok (f x)) -> forall c,
  foreach l (fun x c => do g <- b x; Ok (c ++ [g])%list) c = Ok (c ++ map f l)%list.
Proof.
  induction l as [|x l IH]; intros H c; cbn [foreach map]; [rewrite app_nil_r; reflexivity|]. rewrite H by (left; reflexivity). cbn [bind].
  rewrite IH by (intros; apply H; right; assumption). rewrite <- app_assoc. reflexivity.
Qed.
Lemma qft_stage_eq na lens j c : (j < lens)%nat -> qft_stage na lens j c = Ok (c ++ stage (j + na) (lens - j))%list.
Proof.
  intros H. unfold qft_stage. rewrite pyH. cbn [bind]. fold (gHd (j + na)).
  rewrite (foreach_snoc (fun k => gcR (j + na) (j + k - 1 + na) (2.0 * PI / 2 ^ k))).
  - unfold stage. rewrite <- app_assoc. cbn [app]. do 3 f_equal. replace (lens + 1 - j - 2)%nat with (lens - j - 1)%nat by lia. apply map_ext_in. intros k Hk. apply in_seq in Hk. f_equal. lia.
  - intros k Hk. apply in_seq in Hk. apply py_cR. lia.
Qed.
Lemma stages_eq na lens : forall m j c, (j + m = lens)%nat -> foreach (seq j m) (fun j c => qft_stage na lens j c) c = Ok (c ++ stages (j + na) m)%list.
Proof.
  induction m as [|m IH]; intros j c H; cbn [seq foreach stages]; [rewrite app_nil_r; reflexivity|]. rewrite qft_stage_eq by lia. cbn [bind]. rewrite IH by lia.
  rewrite <- app_assoc. replace (lens - j)%nat with (S m) by lia. reflexivity.
Qed.
Definition qft_gates (na n : nat) : list gate := stages na n ++ swaps na n (Nat.div n 2).
Lemma qft_circuit_eq na nb d : qft_circuit na nb d =
  if String.eqb d "forward" then Ok (qft_gates na (nb + 1 - na)) else if String.eqb d "reverse" then Ok (circuit_adjoint (qft_gates na (nb + 1 - na))) else Throw (PyError "ValueError").
Proof.
  unfold qft_circuit. cbv zeta. set (n := (nb + 1 - na)%nat). rewrite (stages_eq na n n 0 []) by lia. cbn [bind app Nat.add].
  assert (E : (if Nat.even n then Nat.div n 2 else Nat.div (n - 1) 2) = Nat.div n 2).
  { destruct (Nat.even n) eqn:E; [reflexivity|]. assert (O : Nat.odd n = true) by (rewrite <- Nat.negb_even, E; reflexivity). apply Nat.odd_spec in O. destruct O as [m ->].
    transitivity m; [symmetry; apply (Nat.div_unique _ 2 m 0); lia|apply (Nat.div_unique _ 2 m 1); lia]. }
  rewrite E. rewrite (foreach_snoc (fun i => gSW (i + na) (n - 1 - i + na))).
  - reflexivity.
  - intros i Hi. apply in_seq in Hi. apply py_SW. pose proof (Nat.mul_div_le n 2). lia.
Qed.
Lemma gates_lib na n : Forall library_gate (qft_gates na n).
Proof.
  unfold qft_gates. apply Forall_app. split.
  - revert na. induction n as [|n IH]; intros na; cbn [stages]; [constructor|]. apply Forall_app. split; [|apply IH]. unfold stage. constructor; [eapply py_lib, pyH|].
    apply Forall_map, Forall_forall. intros k Hk. apply in_seq in Hk. eapply (lib_make "cR"), py_cR. lia.
  - apply Forall_map, Forall_forall. intros i Hi. apply in_seq in Hi. eapply py_lib, py_SW. pose proof (Nat.mul_div_le n 2). lia.
Qed.

(** ---- bits ---- *)
Lemma bit_put na n I x q : bit (put na n I x) q = if Nat.leb na q && Nat.ltb q (na + n) then bit x (n - 1 - (q - na)) else bit I q.
Proof.
  unfold put. assert (G : forall k s J, (s + k = n)%nat -> bit (fold_left (fun J l => upd J (na + l) (bit x (n - 1 - l))) (seq s k) J) q =
    if Nat.leb (na + s) q && Nat.ltb q (na + n) then bit x (n - 1 - (q - na)) else bit J q).
  { induction k as [|k IH]; intros s J H; cbn [seq fold_left].
    - destruct (Nat.leb_spec (na + s) q), (Nat.ltb_spec q (na + n)); cbn [andb]; try reflexivity; lia.
    - rewrite IH by lia. rewrite bit_upd. destruct (Nat.eqb_spec q (na + s)) as [->|n0].
      + destruct (Nat.leb_spec (na + S s) (na + s)); [lia|]. destruct (Nat.leb_spec (na + s) (na + s)); [|lia]. destruct (Nat.ltb_spec (na + s) (na + n)); [|lia]. cbn [andb]. f_equal. lia.
      + destruct (Nat.leb_spec (na + S s) q), (Nat.leb_spec (na + s) q); try lia; reflexivity. }
  rewrite (G n 0%nat I) by lia. rewrite Nat.add_0_r. reflexivity.
Qed.
Lemma put_S na n I x b : (x < 2 ^ n)%nat -> upd (put (S na) n I x) na b = put na (S n) I (b2n b * 2 ^ n + x).
Proof.
  intros Hx. apply bits_ext. intros q. rewrite bit_upd, !bit_put.
  assert (HT : bit (b2n b * 2 ^ n + x) n = b). { pose proof (bit_decomp n 0 b x Hx) as H. rewrite Nat.mul_0_l, Nat.add_0_l in H. exact H. }
  assert (HL : forall u, (u < n)%nat -> bit (b2n b * 2 ^ n + x) u = bit x u). { intros u Hu. pose proof (bit_low n 0 b x u Hu) as H. rewrite Nat.mul_0_l, Nat.add_0_l in H. exact H. }
  destruct (Nat.eqb_spec q na) as [->|H].
  - destruct (Nat.leb_spec na na); [|lia]. destruct (Nat.ltb_spec na (na + S n)); [|lia]. cbn [andb]. replace (S n - 1 - (na - na))%nat with n by lia. symmetry; exact HT.
  - destruct (Nat.leb_spec (S na) q), (Nat.leb_spec na q); try lia; cbn [andb]; [|reflexivity]. destruct (Nat.ltb_spec q (S na + n)), (Nat.ltb_spec q (na + S n)); try lia; cbn [andb]; [|reflexivity].
    rewrite HL by lia. f_equal. lia.
Qed.
(** little-endian value *)
Fixpoint lval (na n I : nat) : nat := match n with O => 0 | S m => b2n (bit I na) + 2 * lval (S na) m I end.
Lemma list_sum_map_ext {A} (f g : A -> nat) l : (forall x, In x l -> f x = g x) -> list_sum (map f l) = list_sum (map g l).
Proof. intros H. f_equal. apply map_ext_in, H. Qed.
Lemma val_S na n I : val na (S n) I = (b2n (bit I na) * 2 ^ n + val (S na) n I)%nat.
Proof.
  unfold val. cbn [seq map list_sum]. rewrite <- seq_shift, map_map. cbn [fold_right list_sum]. replace (S n - 1 - 0)%nat with n by lia. rewrite Nat.add_0_r. f_equal.
  change (fold_right Nat.add 0%nat) with list_sum. apply list_sum_map_ext. intros l Hl. do 2 f_equal; [f_equal; lia|lia].
Qed.
Lemma val_lt na n I : (val na n I < 2 ^ n)%nat.
Proof. revert na. induction n as [|n IH]; intros na; [cbn; lia|]. rewrite val_S. specialize (IH (S na)). pose proof (pow2_S n). destruct (bit I na); cbn [b2n]; lia. Qed.
Lemma val_put na n I x : (x < 2 ^ n)%nat -> val na n (put na n I x) = x.
Proof.
  revert na I x. induction n as [|n IH]; intros na I x Hx; [cbn in Hx; unfold val; cbn; lia|]. rewrite val_S.
  set (b := bit x n). assert (Hb : x = (b2n b * 2 ^ n + (x - b2n b * 2 ^ n))%nat /\ (x - b2n b * 2 ^ n < 2 ^ n)%nat).
  { pose proof (pow2_S n). destruct (bit_decomp_ex n x) as (k & r & Hr & E). fold b in E. assert (k = 0)%nat by (destruct k; [reflexivity|exfalso; destruct b; cbn [b2n] in E; nia]). subst k. destruct b; cbn [b2n] in *; lia. }
  destruct Hb as [E Hr]. set (r := (x - b2n b * 2 ^ n)%nat) in *. rewrite E. rewrite <- (put_S na n I r b Hr) at 1. rewrite bit_upd_same. f_equal.
  rewrite <- (IH (S na) I r Hr) at 2. unfold val. apply list_sum_map_ext. intros l Hl. apply in_seq in Hl. do 2 f_equal. rewrite <- (put_S na n I r b Hr). rewrite bit_upd_other by lia. reflexivity.
Qed.

(** ---- one stage ---- *)
Lemma rot_phase na : forall n s psi I, 
  circ_act (map (fun k => gcR na (na + k - 1) (2.0 * PI / 2 ^ k)) (seq (S (S s)) n)) psi I =
  (if bit I na then Ccis (fold_right Rplus 0 (map (fun l => INR (b2n (bit I (S na + l))) * (2 * PI / 2 ^ (l + 2))) (seq s n)))%R else C1) * psi I.
Proof.
  induction n as [|n IH]; intros s psi I; cbn [seq map].
  - unfold circ_act; cbn. rewrite Ccis_0. destruct (bit I na); ring.
  - rewrite circ_act_cons, IH. unfold gcR. cbv zeta. rewrite act_2, m_cR_norm, ev_cR by lia. cbn [fold_right]. replace (na + S (S s) - 1)%nat with (S na + s)%nat by lia. rewrite andb_comm.
    destruct (bit I na); cbn [andb]; [|ring]. rewrite Ccis_add. destruct (bit I (S na + s)); cbn [b2n INR].
    + replace (1 * (2 * PI / 2 ^ (s + 2)))%R with (2.0 * PI / 2 ^ S (S s))%R; [ring|]. replace (s + 2)%nat with (S (S s)) by lia. lra.
    + replace (0 * (2 * PI / 2 ^ (s + 2)))%R with 0%R by ring. rewrite Ccis_0. ring.
Qed.
Lemma phase_val na n I : fold_right Rplus 0%R (map (fun l => INR (b2n (bit I (na + l))) * (2 * PI / 2 ^ (l + 2)))%R (seq 0 n)) = (2 * PI * INR (val na n I) / 2 ^ S n)%R.
Proof.
  unfold val. assert (G : forall l0, (forall l, In l l0 -> l < n)%nat ->
    fold_right Rplus 0%R (map (fun l => INR (b2n (bit I (na + l))) * (2 * PI / 2 ^ (l + 2)))%R l0) = (2 * PI * INR (list_sum (map (fun l => b2n (bit I (na + l)) * 2 ^ (n - 1 - l))%nat l0)) / 2 ^ S n)%R).
  { induction l0 as [|l l0 IH]; intros H; cbn [map fold_right list_sum]; [cbn; unfold Rdiv; ring|]. change (fold_right Nat.add 0%nat) with list_sum. rewrite IH by (intros; apply H; right; assumption). rewrite plus_INR, mult_INR, pow_INR. change (INR 2) with 2%R.
    assert (HL : (l < n)%nat) by (apply H; left; reflexivity).
    replace (2 ^ S n)%R with (2 ^ (n - 1 - l) * 2 ^ (l + 2))%R by (rewrite <- pow_add; f_equal; lia).
    assert (2 ^ (n - 1 - l) <> 0)%R by (apply pow_nonzero; lra). assert (2 ^ (l + 2) <> 0)%R by (apply pow_nonzero; lra). field. auto. }
  apply G. intros l Hl. apply in_seq in Hl. lia.
Qed.
Lemma stage_act na n psi I : circ_act (stage na (S n)) psi I =
  RtoC rsqrt2 * (psi (upd I na false) + sgn (bit I na) * psi (upd I na true)) * (if bit I na then Ccis (2 * PI * INR (val (S na) n I) / 2 ^ S n) else C1).
Proof.
  unfold stage. rewrite circ_act_cons. replace (S n - 1)%nat with n by lia. rewrite rot_phase, phase_val. unfold gHd. rewrite act_1, ev_H. destruct (bit I na); ring.
Qed.

(** ---- all stages ---- *)
Lemma seq_add_map N s k : seq (N + s) k = map (fun x => (N + x)%nat) (seq s k).
Proof. revert s. induction k as [|k IH]; intros s; [reflexivity|]. cbn [seq map]. f_equal. rewrite <- IH. f_equal. lia. Qed.
Lemma Csum_double (f : nat -> C) N : Csum f (seq 0 (N + N)) = Csum f (seq 0 N) + Csum (fun x => f (N + x)%nat) (seq 0 N).
Proof.
  rewrite seq_app, Csum_app. f_equal. cbn [Nat.add]. rewrite <- (Nat.add_0_r N) at 1. rewrite seq_add_map. apply Csum_map.
Qed.
Lemma cis_int (k : nat) x : Ccis (x + 2 * PI * INR k) = Ccis x.
Proof. rewrite INR_IZR_INZ. apply Ccis_period. Qed.
Lemma stages_act n : forall na psi I, circ_act (stages na n) psi I =
  RtoC (rsqrt2 ^ n) * Csum (fun x => Ccis (2 * PI * (INR x * INR (lval na n I)) / 2 ^ n) * psi (put na n I x)) (seq 0 (2 ^ n)).
Proof.
  induction n as [|n IH]; intros na psi I.
  - change (seq 0 (2 ^ 0)) with [0%nat]. rewrite Csum_cons, Csum_nil. unfold circ_act, put; cbn [stages fold_left seq lval pow INR]. replace (2 * PI * (0 * 0) / 1)%R with 0%R by lra. rewrite Ccis_0. change (RtoC 1) with C1. ring.
  - cbn [stages]. rewrite circ_act_app, IH. rewrite (pow2_S n), Csum_double. rewrite <- Csum_mul_l, <- Csum_add, <- Csum_mul_l. apply Csum_ext. intros x Hx. apply in_seq in Hx. cbn [Nat.add] in Hx. destruct Hx as [_ Hx].
    rewrite stage_act, (val_put (S na) n I x Hx).
    assert (Eb : bit (put (S na) n I x) na = bit I na). { rewrite bit_put. destruct (Nat.leb_spec (S na) na); [lia|]. reflexivity. }
    rewrite Eb, (put_S na n I x false Hx), (put_S na n I x true Hx). cbn [b2n]. rewrite Nat.mul_0_l, Nat.mul_1_l, Nat.add_0_l. cbn [lval].
    rewrite plus_INR, mult_INR, (plus_INR (2 ^ n) x), pow_INR. change (INR 2) with 2%R. cbn [pow].
    set (L := lval (S na) n I). set (X := INR x). assert (H2 : (2 ^ n <> 0)%R) by (apply pow_nonzero; lra).
    set (A := psi (put na (S n) I x)). set (B := psi (put na (S n) I (2 ^ n + x))).
    assert (E1 : Ccis (2 * PI * (X * (INR (b2n (bit I na)) + 2 * INR L)) / (2 * 2 ^ n)) = Ccis (2 * PI * (X * INR L) / 2 ^ n) * (if bit I na then Ccis (2 * PI * X / (2 * 2 ^ n)) else C1)).
    { destruct (bit I na); cbn [b2n INR].
      - rewrite <- Ccis_add. f_equal. field. exact H2.
      - rewrite Cmul_1_r. f_equal. field. exact H2. }
    assert (E2 : Ccis (2 * PI * ((2 ^ n + X) * (INR (b2n (bit I na)) + 2 * INR L)) / (2 * 2 ^ n)) = Ccis (2 * PI * (X * INR L) / 2 ^ n) * (sgn (bit I na) * (if bit I na then Ccis (2 * PI * X / (2 * 2 ^ n)) else C1))).
    { destruct (bit I na); cbn [b2n INR sgn].
      - replace (2 * PI * ((2 ^ n + X) * (1 + 2 * INR L)) / (2 * 2 ^ n))%R with ((2 * PI * (X * INR L) / 2 ^ n + (PI + 2 * PI * X / (2 * 2 ^ n))) + 2 * PI * INR L)%R by (field; exact H2).
        rewrite cis_int, Ccis_add, Ccis_add. replace (Ccis PI) with (- C1); [ring|]. unfold Ccis. rewrite cos_PI, sin_PI. csolve.
      - replace (2 * PI * ((2 ^ n + X) * (0 + 2 * INR L)) / (2 * 2 ^ n))%R with (2 * PI * (X * INR L) / 2 ^ n + 2 * PI * INR L)%R by (field; exact H2). rewrite cis_int. ring. }
    rewrite E1, E2. replace (RtoC (rsqrt2 * rsqrt2 ^ n)) with (RtoC rsqrt2 * RtoC (rsqrt2 ^ n)) by csolve. ring.
Qed.

(** ---- the swaps reverse the block ---- *)
Fixpoint rv (na n m I : nat) : nat := match m with O => I | S k => rv na n k (swapbits I (k + na) (n - 1 - k + na)) end.
Lemma swaps_act na n m : (2 * m <= n)%nat -> forall psi I, circ_act (swaps na n m) psi I = psi (rv na n m I).
Proof.
  induction m as [|m IH]; intros H psi I; [reflexivity|]. unfold swaps. rewrite seq_S, map_app, circ_act_app. cbn [map Nat.add]. unfold circ_act at 1; cbn [fold_left].
  unfold gSW at 1. rewrite act_2, ev_SWAP by lia. cbn [rv]. apply IH. lia.
Qed.
Lemma bit_rv na n m : (2 * m <= n)%nat -> forall I q, bit (rv na n m I) q =
  if (Nat.leb na q && Nat.ltb q (na + m)) || (Nat.leb (na + n - m) q && Nat.ltb q (na + n)) then bit I (2 * na + n - 1 - q) else bit I q.
Proof.
  induction m as [|m IH]; intros H I q.
  - cbn [rv]. destruct (Nat.leb_spec na q), (Nat.ltb_spec q (na + 0)), (Nat.leb_spec (na + n - 0) q), (Nat.ltb_spec q (na + n)); cbn [andb orb]; try reflexivity; lia.
  - cbn [rv]. rewrite IH by lia. rewrite !bit_swapbits by lia.
    destruct (Nat.leb_spec na q), (Nat.ltb_spec q (na + m)), (Nat.leb_spec (na + n - m) q), (Nat.ltb_spec q (na + n)), (Nat.ltb_spec q (na + S m)), (Nat.leb_spec (na + n - S m) q); cbn [andb orb]; try lia;
    repeat match goal with |- context [Nat.eqb ?a ?b] => destruct (Nat.eqb_spec a b); try lia end; try reflexivity; f_equal; lia.
Qed.
Lemma rv_full na n I q : bit (rv na n (Nat.div n 2) I) q = if Nat.leb na q && Nat.ltb q (na + n) then bit I (2 * na + n - 1 - q) else bit I q.
Proof.
  assert (Hn : (2 * Nat.div n 2 <= n)%nat) by (apply Nat.mul_div_le; lia). assert (Hm : (n < 2 * Nat.div n 2 + 2)%nat) by (pose proof (Nat.mul_succ_div_gt n 2); lia).
  rewrite bit_rv by exact Hn. destruct (Nat.leb_spec na q), (Nat.ltb_spec q (na + Nat.div n 2)), (Nat.leb_spec (na + n - Nat.div n 2) q), (Nat.ltb_spec q (na + n)); cbn [andb orb]; try reflexivity; try lia.
  f_equal. lia.
Qed.
Lemma lval_sum n : forall na I, lval na n I = list_sum (map (fun l => b2n (bit I (na + l)) * 2 ^ l)%nat (seq 0 n)).
Proof.
  induction n as [|n IH]; intros na I; [reflexivity|]. cbn [lval seq map]. change (list_sum (?a :: ?r)) with (a + list_sum r)%nat. rewrite Nat.add_0_r, Nat.pow_0_r, Nat.mul_1_r. f_equal.
  rewrite IH, <- seq_shift, map_map. clear IH. induction (seq 0 n) as [|l r IH]; [reflexivity|]. cbn [map]. change (list_sum (?a :: ?r)) with (a + list_sum r)%nat. rewrite Nat.mul_add_distr_l, IH. f_equal.
  replace (na + S l)%nat with (S na + l)%nat by lia. cbn [Nat.pow]. lia.
Qed.
Lemma list_sum_perm l l' : Permutation.Permutation l l' -> list_sum l = list_sum l'.
Proof. induction 1; cbn [list_sum fold_right]; unfold list_sum in *; try lia. Qed.
Lemma nodup_map_in {A B} (f : A -> B) l : (forall a b, In a l -> In b l -> f a = f b -> a = b) -> NoDup l -> NoDup (map f l).
Proof.
  induction l as [|x l IH]; intros H HN; cbn [map]; [constructor|]. apply NoDup_cons_iff in HN. destruct HN as [HN1 HN2]. constructor.
  - intros HI. apply in_map_iff in HI. destruct HI as (y & E & Hy). apply H in E; [subst; contradiction|right; exact Hy|left; reflexivity].
  - apply IH; [|exact HN2]. intros a b Ha Hb. apply H; right; assumption.
Qed.
Lemma lval_rv na n I : lval na n (rv na n (Nat.div n 2) I) = val na n I.
Proof.
  rewrite lval_sum. unfold val. transitivity (list_sum (map (fun l => b2n (bit I (na + l)) * 2 ^ (n - 1 - l))%nat (map (fun l => n - 1 - l)%nat (seq 0 n)))).
  - rewrite map_map. apply list_sum_map_ext. intros l Hl. apply in_seq in Hl. rewrite rv_full. destruct (Nat.leb_spec na (na + l)); [|lia]. destruct (Nat.ltb_spec (na + l) (na + n)); [|lia]. cbn [andb].
    do 2 f_equal; [f_equal; lia|lia].
  - apply list_sum_perm, Permutation.Permutation_map. apply Permutation.NoDup_Permutation_bis.
    + apply nodup_map_in; [|apply seq_NoDup]. intros a b Ha Hb E. apply in_seq in Ha, Hb. lia.
    + rewrite map_length. lia.
    + intros a Ha. apply in_map_iff in Ha. destruct Ha as (l & <- & Hl). apply in_seq in Hl. apply in_seq. lia.
Qed.
Lemma put_rv na n I x : put na n (rv na n (Nat.div n 2) I) x = put na n I x.
Proof. apply bits_ext. intros q. rewrite !bit_put, rv_full. destruct (Nat.leb na q && Nat.ltb q (na + n)); reflexivity. Qed.
Lemma rsqrt2_pow n : (rsqrt2 ^ n = / sqrt (2 ^ n))%R.
Proof.
  unfold rsqrt2. replace (1 / sqrt 2)%R with (/ sqrt 2)%R by (unfold Rdiv; ring). rewrite pow_inv. f_equal. induction n as [|n IH]; cbn [pow]; [rewrite sqrt_1; reflexivity|]. rewrite IH, sqrt_mult; [reflexivity|lra|apply pow_le; lra].
Qed.
Lemma qft_act na n psi : circ_act (qft_gates na n) psi == dft 1 na n psi.
Proof.
  intros I. unfold qft_gates, dft. rewrite circ_act_app, swaps_act by (apply Nat.mul_div_le; lia). rewrite stages_act, rsqrt2_pow. f_equal. apply Csum_ext. intros x _. rewrite lval_rv, put_rv, Rmult_1_l. reflexivity.
Qed.
(** ---- the adjoint circuit is the inverse transform ---- *)
Lemma inner_ket n J phi : (J < 2 ^ n)%nat -> inner n (ket J) phi = phi J.
Proof.
  intros H. unfold inner. 
  assert (G : forall l, NoDup l -> In J l -> Csum (fun I => Cconj (ket J I) * phi I) l = phi J).
  { induction l as [|x l IH]; intros HN HI; [destruct HI|]. rewrite Csum_cons. apply NoDup_cons_iff in HN. destruct HN as [HN1 HN2]. destruct HI as [->|HI].
    - rewrite Csum_zero; [unfold ket; rewrite Nat.eqb_refl, Cconj_C1; ring|]. intros y Hy. unfold ket. destruct (Nat.eqb_spec y J) as [->|_]; [contradiction|]. rewrite Cconj_C0. ring.
    - rewrite (IH HN2 HI). unfold ket. destruct (Nat.eqb_spec x J) as [->|_]; [contradiction|]. rewrite Cconj_C0. ring. }
  apply G; [apply seq_NoDup|apply in_seq; lia].
Qed.
Lemma qft_range na n N : (na + n <= N)%nat -> Forall (in_range N) (qft_gates na n).
Proof.
  intros H. unfold qft_gates. apply Forall_app. split.
  - revert na H. induction n as [|n IH]; intros na H; cbn [stages]; [constructor|]. apply Forall_app. split; [|apply IH; lia]. unfold stage. constructor; [split; cbn; lia|].
    apply Forall_map, Forall_forall. intros k Hk. apply in_seq in Hk. split; cbn; lia.
  - apply Forall_map, Forall_forall. intros i Hi. apply in_seq in Hi. pose proof (Nat.mul_div_le n 2). split; cbn; lia.
Qed.
Lemma put_lt na n N I x : (na + n <= N)%nat -> (I < 2 ^ N)%nat -> (put na n I x < 2 ^ N)%nat.
Proof.
  intros H HI. apply lt_pow2_bits. intros k Hk. rewrite bit_put. destruct (Nat.leb_spec na k), (Nat.ltb_spec k (na + n)); cbn [andb]; try lia; apply (proj1 (lt_pow2_bits N I) HI k Hk).
Qed.
Lemma put_put na n I x y : put na n (put na n I x) y = put na n I y.
Proof. apply bits_ext. intros q. rewrite !bit_put. destruct (Nat.leb na q && Nat.ltb q (na + n)); reflexivity. Qed.
Lemma put_val na n I : put na n I (val na n I) = I.
Proof.
  revert na I. induction n as [|n IH]; intros na I; [reflexivity|]. rewrite val_S, <- put_S by apply val_lt. rewrite IH. apply upd_id.
Qed.
Lemma val_ext na n I J : (forall l, (l < n)%nat -> bit I (na + l) = bit J (na + l)) -> val na n I = val na n J.
Proof. intros H. unfold val. apply list_sum_map_ext. intros l Hl. apply in_seq in Hl. rewrite H by lia. reflexivity. Qed.
Lemma dft_ket s na n J I : dft s na n (ket J) I = if Nat.eqb (put na n I (val na n J)) J then RtoC (/ sqrt (2 ^ n)) * Ccis (s * (2 * PI * (INR (val na n J) * INR (val na n I)) / 2 ^ n)) else C0.
Proof.
  unfold dft. destruct (Nat.eqb_spec (put na n I (val na n J)) J) as [E|E].
  - f_equal. assert (G : forall l, NoDup l -> In (val na n J) l -> (forall x, In x l -> x < 2 ^ n)%nat ->
      Csum (fun x => Ccis (s * (2 * PI * (INR x * INR (val na n I)) / 2 ^ n)) * ket J (put na n I x)) l = Ccis (s * (2 * PI * (INR (val na n J) * INR (val na n I)) / 2 ^ n))).
    { assert (HK : forall x, (x < 2 ^ n)%nat -> ket J (put na n I x) = if Nat.eqb x (val na n J) then C1 else C0).
      { intros x Hx. unfold ket. destruct (Nat.eqb_spec (put na n I x) J) as [E1|E1], (Nat.eqb_spec x (val na n J)) as [E2|E2]; try reflexivity; exfalso.
        - apply E2. rewrite <- E1. symmetry. apply val_put, Hx.
        - subst x. contradiction. }
      induction l as [|x l IH]; intros HN HI HL; [destruct HI|]. rewrite Csum_cons, HK by (apply HL; left; reflexivity). apply NoDup_cons_iff in HN. destruct HN as [HN1 HN2]. destruct HI as [->|HI].
      - rewrite Nat.eqb_refl, Csum_zero; [ring|]. intros y Hy. rewrite HK by (apply HL; right; exact Hy). destruct (Nat.eqb_spec y (val na n J)) as [->|_]; [contradiction|]. ring.
      - rewrite IH; [|exact HN2|exact HI|intros; apply HL; right; assumption]. destruct (Nat.eqb_spec x (val na n J)) as [->|_]; [contradiction|]. ring. }
    apply G; [apply seq_NoDup|apply in_seq; pose proof (val_lt na n J); lia|intros x Hx; apply in_seq in Hx; lia].
  - rewrite Csum_zero; [ring|]. intros x Hx. apply in_seq in Hx. unfold ket. destruct (Nat.eqb_spec (put na n I x) J) as [E1|_]; [|ring]. exfalso. apply E. rewrite <- E1, val_put by lia. reflexivity.
Qed.
Lemma filter_block na n N I : (na + n <= N)%nat -> (I < 2 ^ N)%nat ->
  Permutation.Permutation (filter (fun J => Nat.eqb (put na n J (val na n I)) I) (seq 0 (2 ^ N))) (map (put na n I) (seq 0 (2 ^ n))).
Proof.
  intros H HI. apply Permutation.NoDup_Permutation.
  - apply NoDup_filter, seq_NoDup.
  - apply nodup_map_in; [|apply seq_NoDup]. intros a b Ha Hb E. apply in_seq in Ha, Hb. rewrite <- (val_put na n I a), <- (val_put na n I b), E by lia. reflexivity.
  - intros J. rewrite filter_In, in_map_iff. split.
    + intros [HJ E]. apply Nat.eqb_eq in E. exists (val na n J). split; [|apply in_seq; pose proof (val_lt na n J); lia]. rewrite <- E, put_put, put_val. reflexivity.
    + intros (x & <- & Hx). apply in_seq in Hx. split; [apply in_seq; pose proof (put_lt na n N I x H HI); lia|]. apply Nat.eqb_eq. rewrite put_put, put_val. reflexivity.
Qed.
Lemma Csum_filter {A} (p : A -> bool) (f : A -> C) l : Csum (fun x => if p x then f x else C0) l = Csum f (filter p l).
Proof.
  induction l as [|x l IH]; [reflexivity|]. rewrite Csum_cons, IH. cbn [filter]. destruct (p x); [rewrite Csum_cons; reflexivity|ring].
Qed.
Lemma qft_adjoint_act na n psi : circ_act (circuit_adjoint (qft_gates na n)) psi == dft (-1) na n psi.
Proof.
  intros I. set (N := (na + n + S I)%nat). assert (HI : (I < 2 ^ N)%nat). { apply Nat.lt_le_trans with (2 ^ I)%nat; [apply Nat.pow_gt_lin_r; lia|]. apply Nat.pow_le_mono_r; subst N; lia. }
  assert (HN : (na + n <= N)%nat) by (subst N; lia).
  rewrite <- (inner_ket N I _ HI).
  set (A := circuit_adjoint (qft_gates na n)).
  assert (E : inner N (ket I) (circ_act A psi) = inner N (circ_act (qft_gates na n) (ket I)) psi).
  { transitivity (inner N (circ_act (qft_gates na n) (ket I)) (circ_act (qft_gates na n) (circ_act A psi))).
    - symmetry. apply circ_preserves_inner; [apply gates_lib|apply qft_range, HN].
    - apply inner_ext; [apply seq_refl|]. apply circuit_adjoint_undoes, gates_lib. }
  rewrite E. rewrite (inner_ext N _ _ psi psi (qft_act na n (ket I)) (seq_refl _)). unfold inner.
  rewrite (Csum_ext _ (fun J => if Nat.eqb (put na n J (val na n I)) I then RtoC (/ sqrt (2 ^ n)) * (Ccis (-1 * (2 * PI * (INR (val na n J) * INR (val na n I)) / 2 ^ n)) * psi J) else C0)).
  2:{ intros J _. rewrite dft_ket. destruct (Nat.eqb _ _); [|rewrite Cconj_C0; ring]. rewrite Rmult_1_l, Cconj_mul, <- Ccis_neg.
      replace (Cconj (RtoC (/ sqrt (2 ^ n)))) with (RtoC (/ sqrt (2 ^ n))) by csolve.
      replace (- (2 * PI * (INR (val na n I) * INR (val na n J)) / 2 ^ n))%R with (-1 * (2 * PI * (INR (val na n J) * INR (val na n I)) / 2 ^ n))%R; [ring|]. field. apply pow_nonzero; lra. }
  rewrite Csum_filter, (Csum_perm _ _ _ (filter_block na n N I HN HI)), Csum_map. unfold dft. rewrite <- Csum_mul_l. apply Csum_ext. intros x Hx. apply in_seq in Hx. rewrite val_put by lia. reflexivity.
Qed.
