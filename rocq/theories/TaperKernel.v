(** The kernel of the parity check matrix (qubit_tapering.py:155-219). *)
From Coq Require Import List Arith Lia Bool.
From Verif Require Import Result TaperModel TaperAlg.
Import ListNotations.
Local Open Scope nat_scope.

Lemma filter_seq_head f : forall l a c rest, filter f (seq a l) = c :: rest ->
  a <= c < a + l /\ f c = true /\ (forall x, a <= x < c -> f x = false) /\
  (forall x, In x rest <-> c < x < a + l /\ f x = true) /\ NoDup rest.
Proof.
  induction l as [|l IH]; intros a c rest E; [discriminate|]. cbn [seq filter] in E. destruct (f a) eqn:Ea.
  - injection E as <- <-. split; [lia|]. split; [exact Ea|]. split; [intros; lia|]. split; [|apply NoDup_filter, seq_NoDup].
    intros x. rewrite filter_In, in_seq. intuition lia.
  - destruct (IH (S a) c rest E) as (H1 & H2 & H3 & H4 & H5). split; [lia|]. split; [exact H2|]. split; [|split; [|exact H5]].
    + intros x Hx. destruct (Nat.eq_dec x a) as [->|]; [exact Ea|apply H3; lia].
    + intros x. rewrite H4. intuition lia.
Qed.
Lemma filter_seq_nil f : forall l a, filter f (seq a l) = [] -> forall x, a <= x < a + l -> f x = false.
Proof.
  intros l a E x Hx. destruct (f x) eqn:Ef; [|reflexivity]. assert (In x (filter f (seq a l))) by (apply filter_In; rewrite in_seq; auto). rewrite E in H. destruct H.
Qed.
Lemma memb_spec x l : memb x l = true <-> In x l.
Proof.
  unfold memb. rewrite existsb_exists. split; [intros (y & Hy & E); apply Nat.eqb_eq in E; subst; exact Hy|intros H; exists x; rewrite Nat.eqb_refl; auto].
Qed.
Lemma memb_false x l : memb x l = false <-> ~ In x l.
Proof. rewrite <- memb_spec. destruct (memb x l); split; congruence. Qed.

(** a run of M[k] ^= M[i] over distinct k <> i *)
Lemma xor_fold w i (f : list (list bool) -> nat -> list (list bool)) :
  (forall M k, f M k = list_set M k (vxor (row_of M i) (row_of M k)) \/ f M k = list_set M k (vxor (row_of M k) (row_of M i))) ->
  forall ks M, NoDup ks -> ~ In i ks -> i < length M -> (forall k, In k ks -> k < length M) -> wide w M ->
  let M' := fold_left f ks M in
  length M' = length M /\ wide w M' /\ requiv (length M) (view M) (view M') /\
  forall r c, view M' r c = if memb r ks then xorb (view M r c) (view M i c) else view M r c.
Proof.
  intros Hf. induction ks as [|k ks IH]; intros M HN HI Hi Hk HW.
  - cbn. split; [reflexivity|]. split; [exact HW|]. split; [apply rq_eq; reflexivity|reflexivity].
  - inversion HN as [|? ? HN1 HN2]; subst. cbn [In] in HI.
    destruct (xor_step w M i k Hi (Hk k (or_introl eq_refl)) ltac:(intros E; apply HI; left; congruence) HW (f M k) (Hf M k)) as (L1 & W1 & V1 & R1).
    destruct (IH (f M k) HN2 ltac:(tauto) ltac:(lia) ltac:(intros; rewrite L1; apply Hk; right; assumption) W1) as (L2 & W2 & R2 & V2).
    cbn [fold_left]. split; [lia|]. split; [exact W2|]. split; [eapply rq_trans; [exact R1|rewrite <- L1; exact R2]|].
    intros r c. rewrite V2, !V1. unfold add_row, memb. cbn [existsb]. fold (memb r ks).
    destruct (Nat.eqb_spec i k); [exfalso; apply HI; left; congruence|]. destruct (Nat.eqb_spec r k) as [->|]; cbn [orb].
    + rewrite (proj2 (memb_false k ks) HN1). reflexivity.
    + reflexivity.
Qed.

Record cef_inv (m w r : nat) (F0 : nat -> nat -> bool) (st : list (list bool) * nat) : Prop := {
  ci_len : length (fst st) = w; ci_wide : wide (m + w) (fst st); ci_idx : snd st <= w;
  ci_req : requiv w F0 (view (fst st));
  ci_zero : forall row c, row < r -> snd st <= c < w -> view (fst st) c row = false;
  ci_piv : forall c, c < snd st -> exists row, row < r /\ view (fst st) c row = true /\ forall c', c < c' < w -> view (fst st) c' row = false }.

Lemma swap_facts w M a b : a < length M -> b < length M -> wide w M ->
  length (swap_cols M a b) = length M /\ wide w (swap_cols M a b) /\ requiv (length M) (view M) (view (swap_cols M a b)) /\
  forall r c, view (swap_cols M a b) r c = if r =? b then view M a c else if r =? a then view M b c else view M r c.
Proof.
  intros Ha Hb HW. unfold swap_cols.
  assert (HV : forall r c, view (list_set (list_set M a (row_of M b)) b (row_of M a)) r c = if r =? b then view M a c else if r =? a then view M b c else view M r c).
  { intros r c. rewrite view_set by (rewrite list_set_length; exact Hb). destruct (r =? b); [reflexivity|]. rewrite view_set by exact Ha. reflexivity. }
  split; [rewrite !list_set_length; reflexivity|]. split; [|split; [|exact HV]].
  - apply wide_set; [apply wide_set; [exact HW|]|]; apply wide_row; assumption.
  - eapply rq_trans; [apply (requiv_swap _ _ b a Hb Ha)|]. apply rq_eq. intros r c _. rewrite HV. unfold swap_row.
    destruct (r =? b); [reflexivity|]. destruct (r =? a); reflexivity.
Qed.

Lemma cef_step m w r F0 st : cef_inv m w r F0 st -> cef_inv m w (S r) F0 (cef_row st r).
Proof.
  intros [HL HW HI HR HZ HP]. unfold cef_row. destruct st as [cols idx]; cbn [fst snd] in *.
  destruct (nonzero_from cols r idx) as [|c rest] eqn:E; unfold nonzero_from in E.
  - pose proof (filter_seq_nil _ _ _ E) as HF. constructor; cbn [fst snd]; try assumption.
    + intros row c Hr Hc. destruct (Nat.eq_dec row r) as [->|]; [apply HF; lia|apply HZ; lia].
    + intros c Hc. destruct (HP c Hc) as (row & H1 & H2). exists row. split; [lia|exact H2].
  - destruct (filter_seq_head _ _ _ _ _ E) as (H1 & H2 & H3 & H4 & H5). change (view cols c r = true) in H2.
    assert (Hc : c < length cols) by lia. assert (Hidx : idx < length cols) by lia.
    destruct (swap_facts (m + w) cols c idx Hc Hidx HW) as (L1 & W1 & R1 & V1).
    assert (Hnot : ~ In idx rest) by (rewrite H4; lia).
    destruct (xor_fold (m + w) idx (xor_into idx) (fun M k => or_introl eq_refl) rest (swap_cols cols c idx) H5 Hnot ltac:(lia)
      ltac:(intros k Hk; apply H4 in Hk; lia) W1) as (L2 & W2 & R2 & V2).
    set (cols' := fold_left (xor_into idx) rest (swap_cols cols c idx)) in *.
    assert (V : forall x y, view cols' x y = if memb x rest then xorb (view cols x y) (view cols c y) else if x =? idx then view cols c y else if x =? c then view cols idx y else view cols x y).
    { intros x y. rewrite V2, !V1, Nat.eqb_refl. destruct (memb x rest) eqn:Em; [|reflexivity]. apply memb_spec, H4 in Em.
      destruct (Nat.eqb_spec x idx); [lia|]. destruct (Nat.eqb_spec x c); [lia|reflexivity]. }
    assert (Hold : forall x, x < idx -> forall y, view cols' x y = view cols x y).
    { intros x Hx y. rewrite V. destruct (memb x rest) eqn:Em; [apply memb_spec, H4 in Em; lia|]. destruct (Nat.eqb_spec x idx); [lia|]. destruct (Nat.eqb_spec x c); [lia|reflexivity]. }
    assert (Hz : forall y, (forall x, idx <= x < w -> view cols x y = false) -> forall x, idx <= x < w -> view cols' x y = false).
    { intros y Hy x Hx. rewrite V, (Hy x Hx), (Hy c) by lia. rewrite (Hy idx) by lia. destruct (memb x rest), (x =? idx), (x =? c); reflexivity. }
    assert (Hr : forall x, idx < x < w -> view cols' x r = false).
    { intros x Hx. rewrite V, H2. destruct (memb x rest) eqn:Em.
      - apply memb_spec, H4 in Em. destruct Em as [_ Em]. change (view cols x r = true) in Em. rewrite Em. reflexivity.
      - destruct (Nat.eqb_spec x idx); [lia|]. destruct (Nat.eqb_spec x c); [apply (H3 idx); lia|].
        destruct (lt_dec x c); [apply (H3 x); lia|]. destruct (view cols x r) eqn:Ev; [|reflexivity].
        apply memb_false in Em. exfalso; apply Em, H4. split; [lia|exact Ev]. }
    constructor; cbn [fst snd].
    + lia.
    + exact W2.
    + lia.
    + eapply rq_trans; [exact HR|]. rewrite HL in R1. eapply rq_trans; [exact R1|]. rewrite L1, HL in R2. exact R2.
    + intros row x Hrow Hx. destruct (Nat.eq_dec row r) as [->|]; [apply Hr; lia|]. apply Hz; [|lia]. intros z Hz'. apply HZ; lia.
    + intros x Hx. destruct (Nat.eq_dec x idx) as [->|].
      * exists r. split; [lia|]. split; [|intros; apply Hr; lia]. rewrite V, Nat.eqb_refl. rewrite (proj2 (memb_false idx rest) Hnot). exact H2.
      * destruct (HP x ltac:(lia)) as (row & P1 & P2 & P3). exists row. split; [lia|]. split; [rewrite Hold by lia; exact P2|].
        intros c' Hc'. destruct (lt_dec c' idx); [rewrite Hold by lia; apply P3; lia|]. apply Hz; [|lia]. intros z Hz'. apply P3; lia.
Qed.
Lemma cef_loop m w F0 : forall k r st, cef_inv m w r F0 st -> cef_inv m w (r + k) F0 (fold_left cef_row (seq r k) st).
Proof.
  induction k as [|k IH]; intros r st H; [rewrite Nat.add_0_r; exact H|]. cbn [seq fold_left]. replace (r + S k) with (S r + k) by lia. apply IH, cef_step, H.
Qed.

Lemma requiv_shift m F G s : requiv m F G -> requiv m (fun i k => F i (s + k)) (fun i k => G i (s + k)).
Proof.
  induction 1 as [F G HE|F i j Hi Hj N|F G H H1 IH1 H2 IH2].
  - apply rq_eq. intros; apply HE; assumption.
  - eapply rq_trans; [apply (rq_add _ _ i j Hi Hj N)|]. apply rq_eq. intros r k _. unfold add_row. reflexivity.
  - eapply rq_trans; eassumption.
Qed.

Lemma nth_skipn {A} (l : list A) s k d : nth k (skipn s l) d = nth (s + k) l d.
Proof. revert l; induction s as [|s IH]; intros l; [reflexivity|]. destruct l as [|x l]; [destruct k; reflexivity|]. cbn [skipn Nat.add nth]. apply IH. Qed.
Lemma unit_vec_nth w j k : nth k (unit_vec w j) false = (k <? w) && (j =? k).
Proof.
  unfold unit_vec. destruct (Nat.ltb_spec k w).
  - rewrite (nth_indep _ false (j =? 0)) by (rewrite map_length, seq_length; exact H). rewrite (map_nth (Nat.eqb j) (seq 0 w) 0 k), seq_nth by exact H. reflexivity.
  - apply nth_overflow. rewrite map_length, seq_length. exact H.
Qed.
Lemma nth_map_in {A B} (f : A -> B) l i d d' : i < length l -> nth i (map f l) d' = f (nth i l d).
Proof. intros H. rewrite (nth_indep _ d' (f d)) by (rewrite map_length; exact H). apply map_nth. Qed.
Lemma aug_view n pcm j : j < 2 * n -> forall k, view (aug_columns n pcm) j k =
  if k <? length pcm then view pcm k j else (k - length pcm <? 2 * n) && (j =? k - length pcm).
Proof.
  intros Hj k. unfold view, row_of, aug_columns. rewrite (nth_map_in _ _ j 0) by (rewrite seq_length; exact Hj).
  rewrite seq_nth by exact Hj. cbn [Nat.add]. destruct (Nat.ltb_spec k (length pcm)).
  - rewrite app_nth1 by (rewrite map_length; exact H). rewrite (nth_map_in _ _ k []) by exact H. reflexivity.
  - rewrite app_nth2 by (rewrite map_length; exact H). rewrite map_length. apply unit_vec_nth.
Qed.

Theorem kernel_spec n m pcm : length pcm = m -> wide (2 * n) pcm ->
  let B := kernel_basis n m pcm in
  wide (2 * n) B /\ indep (length B) (view B) /\
  (forall i t, i < length B -> t < m -> xs (fun j => view pcm t j && view B i j) (2 * n) = false) /\
  (forall v, (forall k, 2 * n <= k -> v k = false) -> (forall t, t < m -> xs (fun j => view pcm t j && v j) (2 * n) = false) -> inspan (length B) (view B) v).
Proof.
  intros Hm HWp. set (w := 2 * n). unfold kernel_basis. fold w.
  assert (H0 : cef_inv m w 0 (view (aug_columns n pcm)) (aug_columns n pcm, 0)).
  { constructor; cbn [fst snd].
    - unfold aug_columns. rewrite map_length, seq_length. reflexivity.
    - unfold wide, aug_columns. apply Forall_forall. intros r Hr. apply in_map_iff in Hr. destruct Hr as (j & <- & _).
      rewrite app_length, map_length, Hm. unfold unit_vec. rewrite map_length, seq_length. reflexivity.
    - lia.
    - apply rq_eq. reflexivity.
    - intros; lia.
    - intros; lia. }
  pose proof (cef_loop m w _ m 0 _ H0) as H. cbn [Nat.add] in H.
  set (st := fold_left cef_row (seq 0 m) (aug_columns n pcm, 0)) in *. destruct st as [cols idx]. destruct H as [HL HW HI HR HZ HP]. cbn [fst snd] in *.
  assert (Hfil : filter (fun col => negb (existsb (fun b => b) (firstn m col))) (skipn idx cols) = skipn idx cols).
  { assert (HA : forall l, (forall col, In col l -> existsb (fun b => b) (firstn m col) = false) -> filter (fun col => negb (existsb (fun b => b) (firstn m col))) l = l).
    { induction l as [|x l IH]; intros Hx; [reflexivity|]. cbn [filter]. rewrite (Hx x (or_introl eq_refl)). cbn [negb]. rewrite IH; [reflexivity|]. intros; apply Hx; right; assumption. }
    apply HA. intros col Hcol. apply (In_nth _ _ []) in Hcol. destruct Hcol as (i & Hi & <-). rewrite skipn_length in Hi. rewrite nth_skipn.
    destruct (existsb (fun b => b) (firstn m (nth (idx + i) cols []))) eqn:Ex; [|reflexivity]. apply existsb_exists in Ex. destruct Ex as (x & Hx & ->).
    apply (In_nth _ _ false) in Hx. destruct Hx as (t & Ht & Et). rewrite firstn_length in Ht. assert (Htm : t < m) by lia.
    rewrite <- (firstn_skipn m (nth (idx + i) cols [])) in Ht.
    assert (En : view cols (idx + i) t = true).
    { unfold view, row_of. rewrite <- (firstn_skipn m (nth (idx + i) cols [])). rewrite app_nth1; [exact Et|].
      rewrite firstn_length. rewrite <- (firstn_skipn m (nth (idx + i) cols [])) at 1. lia. }
    rewrite HZ in En by lia. discriminate. }
  rewrite Hfil. set (B := map (skipn m) (skipn idx cols)).
  assert (LB : length B = w - idx) by (unfold B; rewrite map_length, skipn_length, HL; reflexivity).
  assert (VB : forall i k, i < w - idx -> view B i k = view cols (idx + i) (m + k)).
  { intros i k Hi. unfold view, row_of, B. rewrite (nth_map_in _ _ i []) by (rewrite skipn_length, HL; exact Hi). rewrite !nth_skipn. reflexivity. }
  assert (Hlin : forall i, i < w -> forall t, t < m -> view cols i t = xs (fun j => view pcm t j && view cols i (m + j)) w).
  { apply (requiv_closed w (view (aug_columns n pcm)) (view cols) (fun u => forall t, t < m -> u t = xs (fun j => view pcm t j && u (m + j)) w)).
    - intros u v E Hu t Ht. rewrite <- E, Hu by exact Ht. apply xs_ext. intros; rewrite E; reflexivity.
    - intros u v Hu Hv t Ht. rewrite (Hu t Ht), (Hv t Ht), <- xs_xor. apply xs_ext. intros j _. destruct (view pcm t j); reflexivity.
    - exact HR.
    - intros i Hi t Ht. rewrite aug_view by exact Hi. rewrite Hm. destruct (Nat.ltb_spec t m); [|lia].
      rewrite (xs_ext _ (fun j => (j =? i) && view pcm t j)); [symmetry; apply (xs_delta (view pcm t)), Hi|].
      intros j Hj. rewrite aug_view by exact Hi. rewrite Hm. destruct (Nat.ltb_spec (m + j) m); [lia|]. replace (m + j - m) with j by lia.
      fold w. destruct (Nat.ltb_spec j w); [|lia]. rewrite Nat.eqb_sym. destruct (j =? i), (view pcm t j); reflexivity. }
  assert (HS : requiv w (fun i k => view (aug_columns n pcm) i (m + k)) (fun i k => view cols i (m + k))) by (apply requiv_shift, HR).
  assert (HA : forall i k, i < w -> view (aug_columns n pcm) i (m + k) = (k <? w) && (i =? k)).
  { intros i k Hi. rewrite aug_view by exact Hi. rewrite Hm. destruct (Nat.ltb_spec (m + k) m); [lia|]. replace (m + k - m) with k by lia. reflexivity. }
  split; [|split; [|split]].
  - unfold wide, B. apply Forall_forall. intros r Hr. apply in_map_iff in Hr. destruct Hr as (c & <- & Hc). rewrite skipn_length.
    assert (Hc' : In c cols) by (rewrite <- (firstn_skipn idx cols); apply in_or_app; right; exact Hc).
    unfold wide in HW. rewrite Forall_forall in HW. rewrite (HW c Hc'). unfold w. lia.
  - rewrite LB. assert (Hd : indep (w - idx) (fun i k => view cols (idx + i) (m + k))).
    { apply (indep_drop (w - idx) (fun i k => view cols i (m + k)) idx). replace (idx + (w - idx)) with w by lia. apply (requiv_indep _ _ _ HS).
      intros c Hc i Hi. specialize (Hc i). unfold comb in Hc. rewrite (xs_ext _ (fun j => (j =? i) && c j)) in Hc; [rewrite (xs_delta c w i Hi) in Hc; exact Hc|].
      intros j Hj. rewrite HA by exact Hj. destruct (Nat.ltb_spec i w); [|lia]. destruct (c j), (j =? i); reflexivity. }
    intros c Hc. apply Hd. intros k. rewrite <- (Hc k). apply comb_ext. intros i Hi. symmetry. apply VB, Hi.
  - intros i t Hi Ht. rewrite LB in Hi. rewrite (xs_ext _ (fun j => view pcm t j && view cols (idx + i) (m + j))) by (intros; rewrite VB by exact Hi; reflexivity).
    rewrite <- Hlin by lia. apply HZ; lia.
  - intros v Hv Hker. rewrite LB.
    assert (Hin : inspan w (fun i k => view cols i (m + k)) v).
    { apply (requiv_span _ _ _ _ (requiv_sym _ _ _ HS)). exists v. intros k. unfold comb.
      destruct (lt_dec k w).
      - rewrite (xs_ext _ (fun j => (j =? k) && v j)); [symmetry; apply (xs_delta v), l|]. intros j Hj. rewrite HA by exact Hj. destruct (Nat.ltb_spec k w); [|lia]. destruct (v j), (j =? k); reflexivity.
      - rewrite Hv by (fold w; lia). symmetry. apply xs_zero. intros j Hj. rewrite HA by exact Hj. destruct (Nat.ltb_spec k w); [lia|]. destruct (v j); reflexivity. }
    destruct Hin as [c Hc].
    assert (Htop : forall t, t < m -> comb w c (view cols) t = false).
    { intros t Ht. unfold comb. rewrite (xs_ext _ (fun i => xs (fun j => c i && (view pcm t j && view cols i (m + j))) w)).
      2: { intros i Hi. rewrite (Hlin i Hi t Ht). symmetry. apply xs_and. }
      rewrite xs_swap. rewrite <- (Hker t Ht). apply xs_ext. intros j Hj. rewrite Hc. unfold comb. rewrite <- xs_and. apply xs_ext. intros i Hi.
      destruct (c i), (view pcm t j); reflexivity. }
    assert (Hzero : forall i, i < idx -> c i = false).
    { intros i. induction i as [i IHi] using lt_wf_ind. intros Hi. destruct (HP i Hi) as (row & P1 & P2 & P3). specialize (Htop row P1). unfold comb in Htop.
      rewrite (xs_ext _ (fun j => (j =? i) && c j)) in Htop; [rewrite (xs_delta c) in Htop by lia; exact Htop|].
      intros j Hj. destruct (lt_eq_lt_dec j i) as [[Hlt| ->]|Hgt].
      - rewrite (IHi j Hlt) by lia. rewrite andb_false_r. reflexivity.
      - rewrite P2, Nat.eqb_refl. destruct (c i); reflexivity.
      - rewrite P3 by lia. destruct (Nat.eqb_spec j i); [lia|]. destruct (c j); reflexivity. }
    exists (fun i => c (idx + i)). intros k. rewrite Hc. unfold comb. replace w with (idx + (w - idx)) at 1 by lia. rewrite xs_app.
    rewrite (xs_zero _ idx) by (intros i Hi; rewrite Hzero by exact Hi; reflexivity). rewrite xorb_false_l. apply xs_ext. intros i Hi. rewrite VB by exact Hi. reflexivity.
Qed.
