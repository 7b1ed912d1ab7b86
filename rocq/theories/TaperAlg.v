(** GF(2) linear algebra: xor sums, row operations, spans and independence. *)
From Coq Require Import List Arith Lia Bool.
From Verif Require Import Result TaperModel.
Import ListNotations.
Local Open Scope nat_scope.

(** xor of f 0 .. f (m-1) *)
Fixpoint xs (f : nat -> bool) (m : nat) : bool := match m with O => false | S k => xorb (xs f k) (f k) end.
Lemma xs_ext f g m : (forall i, i < m -> f i = g i) -> xs f m = xs g m.
Proof. induction m as [|m IH]; intros H; cbn; [reflexivity|]. rewrite IH, H by (intros; try apply H; lia). reflexivity. Qed.
Lemma xs_false m : xs (fun _ => false) m = false.
Proof. induction m as [|m IH]; cbn; [reflexivity|]. rewrite IH. reflexivity. Qed.
Lemma xs_zero f m : (forall i, i < m -> f i = false) -> xs f m = false.
Proof. intros H. rewrite (xs_ext f (fun _ => false) m H). apply xs_false. Qed.
Lemma xs_xor f g m : xs (fun i => xorb (f i) (g i)) m = xorb (xs f m) (xs g m).
Proof. induction m as [|m IH]; cbn; [reflexivity|]. rewrite IH. destruct (xs f m), (xs g m), (f m), (g m); reflexivity. Qed.
Lemma xs_and c f m : xs (fun i => c && f i) m = c && xs f m.
Proof. induction m as [|m IH]; cbn; [destruct c; reflexivity|]. rewrite IH. destruct c; reflexivity. Qed.
Lemma xs_and_r c f m : xs (fun i => f i && c) m = xs f m && c.
Proof. rewrite andb_comm, <- xs_and. apply xs_ext. intros; apply andb_comm. Qed.
Lemma xs_swap (f : nat -> nat -> bool) m k : xs (fun i => xs (f i) k) m = xs (fun j => xs (fun i => f i j) m) k.
Proof.
  induction m as [|m IH]; cbn; [symmetry; apply xs_false|]. rewrite IH, <- xs_xor. reflexivity.
Qed.
Lemma xs_delta f m i : i < m -> xs (fun j => Nat.eqb j i && f j) m = f i.
Proof.
  induction m as [|m IH]; intros H; cbn; [lia|]. destruct (Nat.eqb_spec m i) as [->|N].
  - rewrite xs_zero; [destruct (f i); reflexivity|]. intros j Hj. destruct (Nat.eqb_spec j i); [lia|reflexivity].
  - rewrite IH by lia. cbn. destruct (f i); reflexivity.
Qed.
Lemma xs_app f a b : xs f (a + b) = xorb (xs f a) (xs (fun i => f (a + i)) b).
Proof.
  induction b as [|b IH]; [rewrite Nat.add_0_r; cbn; destruct (xs f a); reflexivity|]. rewrite Nat.add_succ_r. cbn. rewrite IH. apply xorb_assoc.
Qed.
Lemma xs_head f m : xs f (S m) = xorb (f 0) (xs (fun i => f (S i)) m).
Proof. change (S m) with (1 + m). rewrite xs_app. cbn [xs]. destruct (f 0); reflexivity. Qed.
Lemma xs_rev m : forall f, xs (fun i => f (m - i - 1)) m = xs f m.
Proof.
  induction m as [|m IH]; intros f; [reflexivity|]. rewrite xs_head. cbn [xs]. replace (S m - 0 - 1) with m by lia.
  rewrite (xs_ext _ (fun i => f (m - i - 1))) by (intros; f_equal; lia). rewrite IH. apply xorb_comm.
Qed.

(** a matrix of m rows as a function; its combination with coefficients c *)
Definition comb (m : nat) (c : nat -> bool) (F : nat -> nat -> bool) (k : nat) : bool := xs (fun i => c i && F i k) m.
Definition inspan (m : nat) (F : nat -> nat -> bool) (v : nat -> bool) : Prop := exists c, forall k, v k = comb m c F k.
Definition indep (m : nat) (F : nat -> nat -> bool) : Prop := forall c, (forall k, comb m c F k = false) -> forall i, i < m -> c i = false.
Definition add_row (G : nat -> nat -> bool) (j i : nat) : nat -> nat -> bool :=
  fun r k => if Nat.eqb r j then xorb (G j k) (G i k) else G r k.
(** row i added to row j, any number of times *)
Inductive requiv (m : nat) : (nat -> nat -> bool) -> (nat -> nat -> bool) -> Prop :=
| rq_eq F G : (forall i k, i < m -> F i k = G i k) -> requiv m F G
| rq_add F i j : i < m -> j < m -> i <> j -> requiv m F (add_row F j i)
| rq_trans F G H : requiv m F G -> requiv m G H -> requiv m F H.

Lemma comb_ext m c F G k : (forall i, i < m -> F i k = G i k) -> comb m c F k = comb m c G k.
Proof. intros H. apply xs_ext. intros i Hi. rewrite H by exact Hi. reflexivity. Qed.
Lemma comb_add m c F i j k : i < m -> j < m -> i <> j ->
  comb m c (add_row F j i) k = comb m (fun r => if Nat.eqb r i then xorb (c i) (c j) else c r) F k.
Proof.
  intros Hi Hj N. unfold comb.
  rewrite (xs_ext _ (fun r => xorb (c r && F r k) (Nat.eqb r j && (c r && F i k)))).
  - rewrite (xs_ext (fun r => (if Nat.eqb r i then xorb (c i) (c j) else c r) && F r k) (fun r => xorb (c r && F r k) (Nat.eqb r i && (c j && F r k)))).
    + rewrite !xs_xor, !xs_delta by assumption. reflexivity.
    + intros r _. destruct (Nat.eqb_spec r i) as [E|]; [rewrite E|]; destruct (c j), (F i k), (F r k), (c i), (c r); reflexivity.
  - intros r _. unfold add_row. destruct (Nat.eqb_spec r j) as [E|]; [rewrite E|]; destruct (c j), (c r), (F j k), (F i k), (F r k); reflexivity.
Qed.
Lemma requiv_indep m F G : requiv m F G -> indep m F -> indep m G.
Proof.
  induction 1 as [F G HE|F i j Hi Hj N|F G H H1 IH1 H2 IH2]; intros HF; [| |auto].
  - intros c Hc. apply HF. intros k. rewrite (comb_ext m c F G k); [apply Hc|]. intros; apply HE; assumption.
  - intros c Hc. assert (Hc' : forall k, comb m (fun r => if Nat.eqb r i then xorb (c i) (c j) else c r) F k = false).
    { intros k. rewrite <- comb_add by assumption. apply Hc. }
    pose proof (HF _ Hc') as H. intros r Hr. pose proof (H j Hj) as Ej. cbv beta in Ej. destruct (Nat.eqb_spec j i); [congruence|].
    pose proof (H r Hr) as Er. cbv beta in Er. destruct (Nat.eqb_spec r i) as [->|]; [|exact Er]. rewrite Ej in Er. destruct (c i); [discriminate|reflexivity].
Qed.
Lemma add_add F i j r k : i <> j -> add_row (add_row F j i) j i r k = F r k.
Proof.
  intros N. unfold add_row. rewrite Nat.eqb_refl. destruct (Nat.eqb_spec r j) as [->|]; [|reflexivity].
  destruct (Nat.eqb_spec i j); [congruence|]. destruct (F j k), (F i k); reflexivity.
Qed.
Lemma requiv_sym m F G : requiv m F G -> requiv m G F.
Proof.
  induction 1 as [F G HE|F i j Hi Hj N|F G H H1 IH1 H2 IH2].
  - apply rq_eq. intros. symmetry. apply HE. assumption.
  - eapply rq_trans; [apply (rq_add m _ i j Hi Hj N)|]. apply rq_eq. intros r k _. apply add_add, N.
  - eapply rq_trans; eassumption.
Qed.
Lemma requiv_span m F G v : requiv m F G -> inspan m G v -> inspan m F v.
Proof.
  induction 1 as [F G HE|F i j Hi Hj N|F G H H1 IH1 H2 IH2]; intros HV; [| |auto].
  - destruct HV as [c Hc]. exists c. intros k. rewrite Hc. apply comb_ext. intros; symmetry; apply HE; assumption.
  - destruct HV as [c Hc]. eexists. intros k. rewrite Hc. apply comb_add; assumption.
Qed.
(** properties closed under xor pass to the new rows *)
Lemma requiv_closed m F G (P : (nat -> bool) -> Prop) : (forall u v, (forall k, u k = v k) -> P u -> P v) ->
  (forall u v, P u -> P v -> P (fun k => xorb (u k) (v k))) ->
  requiv m F G -> (forall i, i < m -> P (F i)) -> forall i, i < m -> P (G i).
Proof.
  intros HX HA. induction 1 as [F G HE|F i j Hi Hj N|F G H H1 IH1 H2 IH2]; intros HF; [| |auto].
  - intros i Hi. apply (HX (F i)); [intros; apply HE, Hi|apply HF, Hi].
  - intros r Hr. unfold add_row. destruct (Nat.eqb_spec r j); [apply HA; apply HF; assumption|apply HF, Hr].
Qed.
(** spans are closed too *)
Lemma span_closed m F (P : (nat -> bool) -> Prop) : (forall u v, (forall k, u k = v k) -> P u -> P v) ->
  (forall u v, P u -> P v -> P (fun k => xorb (u k) (v k))) -> P (fun _ => false) ->
  (forall i, i < m -> P (F i)) -> forall v, inspan m F v -> P v.
Proof.
  intros HX HA H0 HF v [c Hc]. apply (HX (comb m c F)); [intros; symmetry; apply Hc|]. clear v Hc.
  induction m as [|m IH]; [apply (HX _ _ (fun k => eq_refl)); exact H0|].
  apply (HX (fun k => xorb (comb m c F k) (c m && F m k))); [reflexivity|]. apply HA; [apply IH; intros; apply HF; lia|].
  destruct (c m); [apply (HF m); lia|exact H0].
Qed.
Lemma span_row m F i : i < m -> inspan m F (F i).
Proof. intros H. exists (fun j => Nat.eqb j i). intros k. symmetry. apply (xs_delta (fun j => F j k) m i H). Qed.

(** swapping two rows *)
Definition swap_row (F : nat -> nat -> bool) (a b : nat) : nat -> nat -> bool :=
  fun r => if Nat.eqb r a then F b else if Nat.eqb r b then F a else F r.
Lemma requiv_swap m F a b : a < m -> b < m -> requiv m F (swap_row F a b).
Proof.
  intros Ha Hb. destruct (Nat.eq_dec a b) as [->|N].
  - apply rq_eq. intros r k _. unfold swap_row. destruct (Nat.eqb_spec r b) as [->|]; reflexivity.
  - eapply rq_trans; [apply (rq_add m F b a Hb Ha); congruence|]. eapply rq_trans; [apply (rq_add m _ a b Ha Hb); congruence|].
    eapply rq_trans; [apply (rq_add m _ b a Hb Ha); congruence|]. apply rq_eq. intros r k _. unfold add_row, swap_row.
    rewrite !Nat.eqb_refl. destruct (Nat.eqb_spec b a), (Nat.eqb_spec a b); try congruence.
    destruct (Nat.eqb_spec r a) as [E1|], (Nat.eqb_spec r b) as [E2|]; try congruence; rewrite ?E1, ?E2; destruct (F a k), (F b k); reflexivity.
Qed.

(** sublists of rows *)
Lemma indep_drop m F l : indep (l + m) F -> indep m (fun i => F (l + i)).
Proof.
  intros H c Hc i Hi. set (c' := fun r => (l <=? r) && c (r - l)).
  assert (E : c' (l + i) = false).
  { apply H; [|lia]. intros k. unfold comb. rewrite xs_app.
    rewrite (xs_zero (fun r => c' r && F r k)). 2: { intros r Hr. unfold c'. destruct (Nat.leb_spec l r); [lia|reflexivity]. }
    rewrite xorb_false_l. rewrite <- (Hc k). apply xs_ext. intros r _. unfold c'. destruct (Nat.leb_spec l (l + r)); [|lia].
    replace (l + r - l) with r by lia. reflexivity. }
  unfold c' in E. destruct (Nat.leb_spec l (l + i)); [|lia]. replace (l + i - l) with i in E by lia. exact E.
Qed.
(** without row q *)
Definition skip_row (F : nat -> nat -> bool) (q : nat) : nat -> nat -> bool := fun i => F (if i <? q then i else S i).
Lemma xs_skip f q m : q <= m -> xs f (S m) = xorb (f q) (xs (fun i => f (if i <? q then i else S i)) m).
Proof.
  intros H. replace (S m) with (q + (1 + (m - q))) by lia. rewrite !xs_app. cbn [xs]. rewrite Nat.add_0_r, xorb_false_l.
  replace m with (q + (m - q)) at 2 by lia. rewrite xs_app.
  rewrite (xs_ext (fun i => f (if i <? q then i else S i)) f q). 2: { intros i Hi. destruct (Nat.ltb_spec i q); [reflexivity|lia]. }
  rewrite (xs_ext (fun i => f (if q + i <? q then q + i else S (q + i))) (fun i => f (q + (1 + i))) (m - q)).
  2: { intros i Hi. destruct (Nat.ltb_spec (q + i) q); [lia|]. f_equal; lia. }
  destruct (f q), (xs f q), (xs (fun i => f (q + (1 + i))) (m - q)); reflexivity.
Qed.
Lemma indep_skip m F q : q <= m -> indep (S m) F -> indep m (skip_row F q).
Proof.
  intros Hq H c Hc i Hi. set (c' := fun r => if Nat.eqb r q then false else if r <? q then c r else c (r - 1)).
  assert (Hk : forall k, comb (S m) c' F k = false).
  { intros k. unfold comb. rewrite (xs_skip _ q m Hq). rewrite <- (Hc k). unfold c' at 1. rewrite Nat.eqb_refl, xorb_false_l.
    apply xs_ext. intros r Hr. unfold c', skip_row. destruct (Nat.ltb_spec r q).
    - destruct (Nat.eqb_spec r q); [lia|]. destruct (Nat.ltb_spec r q); [reflexivity|lia].
    - destruct (Nat.eqb_spec (S r) q); [lia|]. destruct (Nat.ltb_spec (S r) q); [lia|]. replace (S r - 1) with r by lia. reflexivity. }
  pose proof (H c' Hk) as H'. destruct (Nat.ltb_spec i q).
  - specialize (H' i ltac:(lia)). unfold c' in H'. destruct (Nat.eqb_spec i q); [lia|]. destruct (Nat.ltb_spec i q); [exact H'|lia].
  - specialize (H' (S i) ltac:(lia)). unfold c' in H'. destruct (Nat.eqb_spec (S i) q); [lia|]. destruct (Nat.ltb_spec (S i) q); [lia|].
    replace (S i - 1) with i in H' by lia. exact H'.
Qed.
Lemma span_skip m F q c k : q <= m -> c q = false -> comb (S m) c F k = comb m (fun i => c (if i <? q then i else S i)) (skip_row F q) k.
Proof. intros Hq Hc. unfold comb. rewrite (xs_skip _ q m Hq), Hc. cbn [andb]. rewrite xorb_false_l. reflexivity. Qed.

(** the list view *)
Definition view (M : list (list bool)) : nat -> nat -> bool := fun i k => nth k (row_of M i) false.
Lemma nth_vxor a : forall b k, nth k (vxor a b) false = xorb (nth k a false) (nth k b false).
Proof.
  induction a as [|x a IH]; intros [|y b] k; cbn [vxor].
  - destruct k; reflexivity.
  - destruct k; cbn [nth]; rewrite xorb_false_l; reflexivity.
  - replace (nth k [] false) with false by (destruct k; reflexivity). rewrite xorb_false_r. reflexivity.
  - destruct k; cbn [nth]; [reflexivity|apply IH].
Qed.
Lemma vxor_length a : forall b, length b = length a -> length (vxor a b) = length a.
Proof. induction a as [|x a IH]; intros [|y b] H; cbn in *; try lia. rewrite IH; lia. Qed.
Lemma row_set M i v r : i < length M -> row_of (list_set M i v) r = if r =? i then v else row_of M r.
Proof. intros H. unfold row_of. apply nth_list_set, H. Qed.
Lemma view_set M j v r k : j < length M -> view (list_set M j v) r k = if r =? j then nth k v false else view M r k.
Proof. intros H. unfold view. rewrite row_set by exact H. destruct (r =? j); reflexivity. Qed.
Definition wide (w : nat) (M : list (list bool)) : Prop := Forall (fun r => length r = w) M.
Lemma wide_row w M i : wide w M -> i < length M -> length (row_of M i) = w.
Proof. intros H Hi. unfold wide in H. rewrite Forall_forall in H. apply H, nth_In, Hi. Qed.
Lemma wide_set w M i v : wide w M -> length v = w -> wide w (list_set M i v).
Proof.
  intros H Hv. revert i. induction H as [|r M Hr HM IH]; intros [|i]; cbn [list_set]; constructor; auto. apply IH.
Qed.
(** M[k] ^= M[i] *)
Lemma xor_step w M i k : i < length M -> k < length M -> i <> k -> wide w M ->
  forall M', (M' = list_set M k (vxor (row_of M i) (row_of M k)) \/ M' = list_set M k (vxor (row_of M k) (row_of M i))) ->
  length M' = length M /\ wide w M' /\ (forall r c, view M' r c = add_row (view M) k i r c) /\ requiv (length M) (view M) (view M').
Proof.
  intros Hi Hk N HW M' HE.
  assert (HV : forall r c, view M' r c = add_row (view M) k i r c).
  { intros r c. destruct HE as [-> | ->]; rewrite view_set by exact Hk; unfold add_row; destruct (Nat.eqb_spec r k); try reflexivity; rewrite nth_vxor; unfold view; [apply xorb_comm|reflexivity]. }
  split; [destruct HE as [-> | ->]; apply list_set_length|]. split; [|split; [exact HV|]].
  - assert (L1 := wide_row w M i HW Hi). assert (L2 := wide_row w M k HW Hk).
    destruct HE as [-> | ->]; apply wide_set; try exact HW; rewrite vxor_length; congruence.
  - eapply rq_trans; [apply (rq_add _ _ i k Hi Hk N)|]. apply rq_eq. intros r c _. symmetry. apply HV.
Qed.
