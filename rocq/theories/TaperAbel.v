(** The maximal Abelian subgroup and the column reduction (qubit_tapering.py:309-398, 82-91). *)
From Coq Require Import List Arith Lia Bool.
From Verif Require Import Result TaperModel TaperAlg TaperKernel TaperGS.
Import ListNotations.
Local Open Scope nat_scope.

Lemma weight_nonzeros r : weight r = length (nonzeros r).
Proof.
  unfold weight, nonzeros. induction r as [|x r IH]; [reflexivity|]. cbn [length seq]. rewrite <- seq_shift.
  assert (E : forall l, length (filter (fun j => nth j (x :: r) false) (map S l)) = length (filter (fun j => nth j r false) l)).
  { induction l as [|y l IHl]; [reflexivity|]. cbn [map filter]. change (nth (S y) (x :: r) false) with (nth y r false). destruct (nth y r false); cbn [length]; rewrite IHl; reflexivity. }
  cbn [filter]. change (nth 0 (x :: r) false) with x. destruct x; cbn [length]; rewrite E, IH; reflexivity.
Qed.
Lemma singleton (l : list nat) q : NoDup l -> In q l -> (forall x, In x l -> x = q) -> l = [q].
Proof.
  intros HN HI HA. destruct l as [|a l]; [destruct HI|]. rewrite (HA a (or_introl eq_refl)) in *. f_equal. destruct l as [|b l]; [reflexivity|].
  inversion HN; subst. exfalso. apply H1. rewrite (HA b (or_intror (or_introl eq_refl))). left; reflexivity.
Qed.
Lemma nonzeros_nodup r : NoDup (nonzeros r). Proof. apply NoDup_filter, seq_NoDup. Qed.

Definition AtMostOne (n : nat) (B : list (list bool)) : Prop := forall i j k, i < length B -> j < length B -> k < length B ->
  gram n B i j = true -> gram n B i k = true -> j = k.
Lemma row_cases n B i : wide (2 * n) B -> AtMostOne n B -> i < length B ->
  nonzeros (row_of (commutation B) i) = [] \/ exists q, q < length B /\ gram n B i q = true /\ nonzeros (row_of (commutation B) i) = [q].
Proof.
  intros HW H1 Hi. pose proof (fun x => nonzeros_com n B i x HW Hi) as HN. pose proof (nonzeros_nodup (row_of (commutation B) i)) as HD.
  destruct (nonzeros (row_of (commutation B) i)) as [|q l] eqn:E; [left; reflexivity|right]. exists q.
  destruct (proj1 (HN q) (or_introl eq_refl)) as [Hq Gq]. split; [exact Hq|]. split; [exact Gq|].
  apply singleton; [exact HD|left; reflexivity|]. intros x Hx. destruct (proj1 (HN x) Hx) as [Hx' Gx]. exact (H1 i x q Hi Hx' Hq Gx Gq).
Qed.
Lemma com_length B : length (commutation B) = length B. Proof. apply map_length. Qed.

Lemma lightest_spec n B : 1 <= n -> wide (2 * n) B -> AtMostOne n B -> (exists i j, i < length B /\ j < length B /\ gram n B i j = true) ->
  exists q, q < length B /\ lightest_row n (commutation B) < length B /\ gram n B (lightest_row n (commutation B)) q = true /\
    nonzeros (row_of (commutation B) (lightest_row n (commutation B))) = [q].
Proof.
  intros Hn HW H1 (i0 & j0 & Hi0 & Hj0 & G0). unfold lightest_row. rewrite com_length.
  set (f := fun (st : nat * nat) row => let w := weight (row_of (commutation B) row) in if (0 <? w) && (w <? fst st) then (w, row) else st).
  assert (HF : forall l st, (forall x, In x l -> x < length B) ->
    (st = (2 * n, 0) \/ fst st = 1 /\ snd st < length B /\ weight (row_of (commutation B) (snd st)) = 1) ->
    (fold_left f l st = (2 * n, 0) /\ st = (2 * n, 0) /\ (forall x, In x l -> weight (row_of (commutation B) x) = 0)) \/
    (fst (fold_left f l st) = 1 /\ snd (fold_left f l st) < length B /\ weight (row_of (commutation B) (snd (fold_left f l st))) = 1)).
  { induction l as [|x l IH]; intros st Hl Hst; cbn [fold_left].
    - destruct Hst as [-> |Hst]; [left; split; [reflexivity|split; [reflexivity|intros ? []]]|right; exact Hst].
    - assert (Hx : x < length B) by (apply Hl; left; reflexivity).
      assert (Hw : weight (row_of (commutation B) x) = 0 \/ weight (row_of (commutation B) x) = 1).
      { rewrite weight_nonzeros. destruct (row_cases n B x HW H1 Hx) as [-> |(q & _ & _ & ->)]; [left|right]; reflexivity. }
      destruct (IH (f st x) (fun y Hy => Hl y (or_intror Hy))) as [(A1 & A2 & A3)|A].
      + unfold f; cbv zeta. destruct Hw as [Ew|Ew]; rewrite Ew; [exact Hst|]. change (0 <? 1) with true. cbn [andb]. destruct (1 <? fst st) eqn:El.
        * right. cbn [fst snd]. rewrite Ew. auto.
        * destruct Hst as [-> |Hst]; [|right; exact Hst]. cbn [fst] in El. apply Nat.ltb_ge in El. lia.
      + left. split; [exact A1|]. unfold f in A2; cbv zeta in A2. destruct Hw as [Ew|Ew].
        * rewrite Ew in A2. change (0 <? 0) with false in A2. cbn [andb] in A2. split; [exact A2|]. intros y [<-|Hy]; [exact Ew|apply A3, Hy].
        * exfalso. rewrite Ew in A2. destruct Hst as [-> |Hst].
          -- cbn [fst] in A2. destruct (Nat.ltb_spec 1 (2 * n)); [|lia]. change (0 <? 1) with true in A2. cbn [andb] in A2. injection A2 as A2 _. lia.
          -- destruct Hst as (S1 & _). rewrite S1 in A2. change (1 <? 1) with false in A2. rewrite andb_false_r in A2. rewrite A2 in S1. cbn [fst] in S1. lia.
      + right. exact A. }
  destruct (HF (seq 0 (length B)) (2 * n, 0) ltac:(intros x Hx; apply in_seq in Hx; lia) (or_introl eq_refl)) as [(_ & _ & A)|(_ & A1 & A2)].
  - exfalso. specialize (A i0 ltac:(apply in_seq; lia)). rewrite weight_nonzeros in A.
    assert (HI : In j0 (nonzeros (row_of (commutation B) i0))) by (apply (nonzeros_com n); auto).
    destruct (nonzeros (row_of (commutation B) i0)); [destruct HI|discriminate].
  - set (i := snd (fold_left f (seq 0 (length B)) (2 * n, 0))) in *. rewrite weight_nonzeros in A2.
    destruct (row_cases n B i HW H1 A1) as [E|(q & Hq & Gq & E)]; [rewrite E in A2; discriminate|]. exists q. auto.
Qed.

Lemma filter_skip q m : q <= m -> filter (fun i => negb (memb i [q])) (seq 0 (S m)) = seq 0 q ++ seq (S q) (m - q).
Proof.
  intros H. replace (S m) with (q + (1 + (m - q))) by lia. rewrite !seq_app, !filter_app. cbn [Nat.add seq filter].
  assert (E : forall l, (forall x, In x l -> x <> q) -> filter (fun i => negb (memb i [q])) l = l).
  { induction l as [|x l IH]; intros Hx; [reflexivity|]. cbn [filter memb existsb]. destruct (Nat.eqb_spec x q) as [->|]; [exfalso; apply (Hx q); [left|]; reflexivity|].
    cbn [orb negb]. f_equal. apply IH. intros; apply Hx; right; assumption. }
  cbn [memb existsb]. rewrite Nat.eqb_refl. cbn [orb negb app]. rewrite Nat.add_1_r. rewrite !E; [reflexivity|..]; intros x Hx; apply in_seq in Hx; lia.
Qed.
Lemma delete_spec w B q : q < length B -> wide w B ->
  S (length (delete_rows B [q])) = length B /\ wide w (delete_rows B [q]) /\ forall i k, i < length (delete_rows B [q]) -> view (delete_rows B [q]) i k = skip_row (view B) q i k.
Proof.
  intros Hq HW. unfold delete_rows. destruct (length B) as [|m] eqn:EL; [lia|]. rewrite filter_skip by lia.
  assert (Len : length (map (row_of B) (seq 0 q ++ seq (S q) (m - q))) = m) by (rewrite map_length, app_length, !seq_length; lia).
  rewrite Len. split; [reflexivity|]. split.
  - unfold wide. apply Forall_forall. intros r Hr. apply in_map_iff in Hr. destruct Hr as (i & <- & Hi). apply wide_row; [exact HW|].
    apply in_app_or in Hi. rewrite !in_seq in Hi. lia.
  - intros i k Hi. unfold view at 1, row_of at 1. rewrite (nth_map_in _ _ i 0) by (rewrite <- (map_length (row_of B)), Len; exact Hi). unfold skip_row, view.
    do 2 f_equal. destruct (Nat.ltb_spec i q).
    + rewrite app_nth1 by (rewrite seq_length; assumption). rewrite seq_nth by assumption. reflexivity.
    + rewrite app_nth2 by (rewrite seq_length; assumption). rewrite seq_length, seq_nth by lia. lia.
Qed.

Lemma nonzero_com_exists n B : wide (2 * n) B -> existsb (existsb (fun b => b)) (commutation B) = true -> exists i j, i < length B /\ j < length B /\ gram n B i j = true.
Proof.
  intros HW E. apply existsb_exists in E. destruct E as (r & Hr & E). apply existsb_exists in E. destruct E as (x & Hx & ->).
  apply (In_nth _ _ []) in Hr. destruct Hr as (i & Hi & <-). rewrite com_length in Hi. apply (In_nth _ _ false) in Hx. destruct Hx as (j & Hj & E).
  change (nth i (commutation B) []) with (row_of (commutation B) i) in Hj. rewrite com_len in Hj by exact Hi. exists i, j. split; [exact Hi|]. split; [exact Hj|].
  rewrite <- com_view by assumption. exact E.
Qed.
Lemma zero_com n B : wide (2 * n) B -> existsb (existsb (fun b => b)) (commutation B) = false -> forall i j, i < length B -> j < length B -> gram n B i j = false.
Proof.
  intros HW E i j Hi Hj. destruct (gram n B i j) eqn:G; [|reflexivity]. exfalso.
  assert (ET : existsb (existsb (fun b => b)) (commutation B) = true); [|congruence].
  apply existsb_exists. exists (row_of (commutation B) i). split; [apply nth_In; rewrite com_length; exact Hi|].
  apply existsb_exists. exists true. split; [|reflexivity]. rewrite <- G, <- com_view by assumption. apply nth_In. rewrite com_len; assumption.
Qed.

Theorem abelian_spec n : forall fuel B, length B < fuel -> wide (2 * n) B -> AtMostOne n B ->
  exists G, abelian_loop fuel n B (commutation B) = Ok G /\ wide (2 * n) G /\
    (forall i j, i < length G -> j < length G -> gram n G i j = false) /\
    (indep (length B) (view B) -> indep (length G) (view G)) /\
    (forall i, i < length G -> exists j, j < length B /\ forall k, view G i k = view B j k) /\
    (forall u, inspan (length B) (view B) u -> (forall i, i < length G -> sf n u (view G i) = false) -> inspan (length G) (view G) u) /\
    (* rows orthogonal to all others survive *)
    (forall j, j < length B -> (forall k, k < length B -> gram n B j k = false) -> exists i, i < length G /\ forall k, view G i k = view B j k).
Proof.
  induction fuel as [|fuel IH]; intros B HL HW H1; [lia|]. cbn [abelian_loop].
  destruct (existsb (existsb (fun b => b)) (commutation B)) eqn:E.
  - destruct (nonzero_com_exists n B HW E) as (i0 & j0 & Hi0 & Hj0 & G0).
    assert (Hn : 1 <= n) by (destruct n; [unfold gram, sf in G0; cbn in G0; discriminate|lia]).
    destruct (lightest_spec n B Hn HW H1 (ex_intro _ i0 (ex_intro _ j0 (conj Hi0 (conj Hj0 G0))))) as (q & Hq & Hp & Gpq & Enz).
    set (p := lightest_row n (commutation B)) in *. rewrite Enz.
    destruct (delete_spec (2 * n) B q Hq HW) as (L1 & W1 & V1). set (B1 := delete_rows B [q]) in *.
    assert (Npq : p <> q) by (intros EE; rewrite EE, gram_self in Gpq; discriminate).
    assert (HG1 : forall i j, i < length B1 -> j < length B1 -> gram n B1 i j = gram n B (if i <? q then i else S i) (if j <? q then j else S j)).
    { intros i j Hi Hj. apply sf_ext; intros k; rewrite V1 by assumption; reflexivity. }
    assert (Hidx : forall i, i < length B1 -> (if i <? q then i else S i) < length B) by (intros i Hi; destruct (i <? q); lia).
    assert (H1' : AtMostOne n B1).
    { intros i j k Hi Hj Hk Gj Gk. rewrite HG1 in Gj, Gk by assumption. pose proof (H1 _ _ _ (Hidx i Hi) (Hidx j Hj) (Hidx k Hk) Gj Gk) as EE.
      destruct (Nat.ltb_spec j q), (Nat.ltb_spec k q); lia. }
    destruct (IH B1 ltac:(lia) W1 H1') as (G & EG & WG & ZG & IG & RG & SG & PG). exists G. split; [exact EG|]. split; [exact WG|]. split; [exact ZG|].
    assert (Hback : forall j, j < length B -> j <> q -> exists i, i < length B1 /\ (if i <? q then i else S i) = j).
    { intros j Hj Nj. destruct (lt_dec j q).
      - exists j. split; [lia|]. destruct (Nat.ltb_spec j q); lia.
      - exists (j - 1). split; [lia|]. destruct (Nat.ltb_spec (j - 1) q); lia. }
    assert (Hp' : exists i, i < length G /\ forall k, view G i k = view B p k).
    { destruct (Hback p Hp Npq) as (i1 & Hi1 & E1). destruct (PG i1 Hi1) as (i & Hi & Hv).
      - intros k Hk. rewrite HG1, E1 by assumption. destruct (gram n B p (if k <? q then k else S k)) eqn:Gk; [|reflexivity]. exfalso.
        pose proof (H1 _ _ _ Hp Hq (Hidx k Hk) Gpq Gk) as EE. destruct (Nat.ltb_spec k q); lia.
      - exists i. split; [exact Hi|]. intros k. rewrite Hv, V1 by exact Hi1. unfold skip_row. rewrite E1. reflexivity. }
    split; [|split; [|split]].
    + intros HI. apply IG. rewrite <- L1 in HI. pose proof (indep_skip (length B1) (view B) q ltac:(lia) HI) as HI'. intros c Hc. apply HI'. intros k. rewrite <- (Hc k). apply comb_ext. intros i Hi. symmetry. apply V1, Hi.
    + intros i Hi. destruct (RG i Hi) as (j & Hj & Hv). eexists. split; [apply (Hidx j Hj)|]. intros k. rewrite Hv, V1 by exact Hj. reflexivity.
    + intros u [c Hc] Ho. apply SG; [|exact Ho]. destruct Hp' as (ip & Hip & Hvp).
      assert (Eq : c q = false).
      { specialize (Ho ip Hip). rewrite (sf_ext n u (comb (length B) c (view B)) (view G ip) (view B p) Hc Hvp) in Ho. rewrite sf_comb in Ho.
        rewrite (xs_ext _ (fun i => (i =? q) && c i)) in Ho; [rewrite (xs_delta c) in Ho by exact Hq; exact Ho|].
        intros i Hi. fold (gram n B i p). rewrite gram_sym. destruct (Nat.eqb_spec i q) as [->|N]; [rewrite Gpq; destruct (c q); reflexivity|].
        destruct (gram n B p i) eqn:Gi; [|destruct (c i); reflexivity]. exfalso; apply N. exact (H1 _ _ _ Hp Hi Hq Gi Gpq). }
      eexists. intros k. rewrite Hc. rewrite <- L1. rewrite (span_skip (length B1) (view B) q c k ltac:(lia) Eq). apply comb_ext. intros i Hi. symmetry. apply V1, Hi.
    + intros j Hj Hz. assert (Nj : j <> q) by (intros EE; subst j; specialize (Hz p Hp); rewrite gram_sym, Gpq in Hz; discriminate).
      destruct (Hback j Hj Nj) as (i1 & Hi1 & E1). destruct (PG i1 Hi1) as (i & Hi & Hv).
      * intros k Hk. rewrite HG1, E1 by assumption. apply Hz, Hidx, Hk.
      * exists i. split; [exact Hi|]. intros k. rewrite Hv, V1 by exact Hi1. unfold skip_row. rewrite E1. reflexivity.
  - exists B. split; [reflexivity|]. split; [exact HW|]. split; [apply zero_com; assumption|]. split; [auto|]. split; [intros i Hi; exists i; auto|]. split; [auto|]. intros j Hj _. exists j. auto.
Qed.

(** ---- column reduction ---- *)
Lemma col_nz M c x : In x (column_nonzeros M c) <-> x < length M /\ view M x c = true.
Proof. unfold column_nonzeros. rewrite filter_In, in_seq. unfold view. intuition lia. Qed.
Lemma col_nodup M c : NoDup (column_nonzeros M c). Proof. apply NoDup_filter, seq_NoDup. Qed.
Record red_inv (n l : nat) (F0 : nat -> nat -> bool) (done : nat -> Prop) (M : list (list bool)) (lst : list nat) : Prop := {
  ri_len : length M = l; ri_wide : wide (2 * n) M; ri_req : requiv l F0 (view M);
  ri_nodup : NoDup lst; ri_lt : forall r, In r lst -> r < l;
  ri_piv : forall r, In r lst -> exists c, n <= c < 2 * n /\ view M r c = true /\ forall x, x < l -> x <> r -> view M x c = false;
  ri_done : forall c r, done c -> r < l -> ~ In r lst -> view M r c = false }.
Definition Reduced (n : nat) (M : list (list bool)) : Prop := forall r, r < length M ->
  (exists c, n <= c < 2 * n /\ view M r c = true /\ forall x, x < length M -> x <> r -> view M x c = false) \/
  (forall c, n <= c < 2 * n -> view M r c = false).
Lemma reduce_loop n l F0 : forall cols (done : nat -> Prop) M lst, (forall c, In c cols -> n <= c < 2 * n) -> (forall c, n <= c < 2 * n -> done c \/ In c cols) ->
  red_inv n l F0 done M lst ->
  let M' := reduce_columns cols M lst (length lst) in length M' = l /\ wide (2 * n) M' /\ requiv l F0 (view M') /\ Reduced n M'.
Proof.
  induction cols as [|c cols IH]; intros done M lst Hc Hall HI.
  - destruct HI as [H1 H2 H3 H4 H5 H6 H7]. cbn [reduce_columns]. repeat (split; [assumption|]). intros r Hr. rewrite H1 in *.
    destruct (in_dec Nat.eq_dec r lst) as [Hin|Hn]; [left; exact (H6 r Hin)|]. right. intros c Hcc. destruct (Hall c Hcc) as [Hd|[]]. exact (H7 c r Hd Hr Hn).
  - assert (Hc0 : n <= c < 2 * n) by (apply Hc; left; reflexivity).
    assert (Key : exists M1 lst1,
      (match column_nonzeros M c with
        | [r] => if memb r lst then (M, (lst, length lst)) else (M, ((lst ++ [r])%list, S (length lst)))
        | _ => match find (fun r => negb (memb r lst)) (column_nonzeros M c) with
            | None => (M, (lst, length lst))
            | Some r => (fold_left (fun M el => list_set M el (vxor (row_of M el) (row_of M r))) (filter (fun el => negb (Nat.eqb el r)) (column_nonzeros M c)) M, ((lst ++ [r])%list, S (length lst)))
            end
        end) = (M1, (lst1, length lst1)) /\ red_inv n l F0 (fun x => done x \/ x = c) M1 lst1).
    { pose proof (col_nz M c) as HN. pose proof (col_nodup M c) as HND. destruct HI as [H1 H2 H3 H4 H5 H6 H7].
      (* a new pivot: rows other than r in column c are already zero after the xors *)
      assert (Knew : forall r ks f, In r (column_nonzeros M c) -> ~ In r lst -> NoDup ks -> ~ In r ks -> (forall x, x < l -> x <> r -> view M x c = true -> In x ks) ->
        (forall x, In x ks -> x < l /\ view M x c = true) ->
        (forall M k, f M k = list_set M k (vxor (row_of M r) (row_of M k)) \/ f M k = list_set M k (vxor (row_of M k) (row_of M r))) ->
        red_inv n l F0 (fun x => done x \/ x = c) (fold_left f ks M) (lst ++ [r])).
      { intros r ks f Hr Hnr HNk Hrk Hcov Hks Hf. apply HN in Hr. destruct Hr as [Hr Vr]. rewrite H1 in Hr.
        destruct (xor_fold (2 * n) r f Hf ks M HNk Hrk ltac:(lia) ltac:(intros k Hk; rewrite H1; apply Hks, Hk) H2) as (L1 & W1 & R1 & V1).
        assert (Vc : forall x, x < l -> x <> r -> view (fold_left f ks M) x c = false).
        { intros x Hx Nx. rewrite V1, Vr. destruct (memb x ks) eqn:Em.
          - apply memb_spec in Em. rewrite (proj2 (Hks x Em)). reflexivity.
          - destruct (view M x c) eqn:Ev; [|reflexivity]. apply memb_false in Em. exfalso; apply Em, Hcov; assumption. }
        assert (Vrow : forall k, view (fold_left f ks M) r k = view M r k) by (intros k; rewrite V1, (proj2 (memb_false r ks) Hrk); reflexivity).
        constructor.
        - lia.
        - exact W1.
        - eapply rq_trans; [exact H3|]. rewrite H1 in R1. exact R1.
        - apply NoDup_rev in H4. rewrite <- (rev_involutive (lst ++ [r])), rev_app_distr. apply NoDup_rev. cbn [rev app]. constructor; [rewrite <- in_rev; exact Hnr|exact H4].
        - intros x Hx. apply in_app_or in Hx. destruct Hx as [Hx|[<-|[]]]; [apply H5, Hx|exact Hr].
        - intros x Hx. apply in_app_or in Hx. destruct Hx as [Hx|[<-|[]]].
          + destruct (H6 x Hx) as (d & Hd & Vd & Od). exists d. split; [exact Hd|]. assert (Nxr : r <> x) by (intros ->; contradiction).
            assert (Vrd : view M r d = false) by (apply Od; assumption). split.
            * rewrite V1, Vrd, xorb_false_r. destruct (memb x ks); exact Vd.
            * intros y Hy Ny. rewrite V1, Vrd, xorb_false_r. destruct (memb y ks); apply Od; assumption.
          + exists c. split; [exact Hc0|]. split; [rewrite Vrow; exact Vr|]. intros x Hx Nx. apply Vc; assumption.
        - intros d x [Hd|Hd] Hx Hnx.
          + assert (A : view M x d = false) by (apply H7; try assumption; intros Hin; apply Hnx, in_or_app; left; exact Hin).
            assert (A2 : view M r d = false) by (apply H7; assumption). rewrite V1, A, A2. destruct (memb x ks); reflexivity.
          + subst d. apply Vc; [exact Hx|]. intros ->. apply Hnx, in_or_app. right; left; reflexivity. }
      assert (Kold : (forall x, In x (column_nonzeros M c) -> In x lst) -> red_inv n l F0 (fun x => done x \/ x = c) M lst).
      { intros Hcov. constructor; auto. intros d x [Hd|Hd] Hx Hnx; [apply H7; assumption|]. subst d. destruct (view M x c) eqn:Ev; [|reflexivity]. exfalso. apply Hnx, Hcov, HN. split; [lia|exact Ev]. }
      set (nz := column_nonzeros M c) in *.
      assert (Kmulti : exists M1 lst1, (match find (fun r => negb (memb r lst)) nz with
            | None => (M, (lst, length lst))
            | Some r => (fold_left (fun M el => list_set M el (vxor (row_of M el) (row_of M r))) (filter (fun el => negb (Nat.eqb el r)) nz) M, ((lst ++ [r])%list, S (length lst)))
            end) = (M1, (lst1, length lst1)) /\ red_inv n l F0 (fun x => done x \/ x = c) M1 lst1).
      { destruct (find (fun r => negb (memb r lst)) nz) as [r|] eqn:Ef.
        - apply find_some in Ef. destruct Ef as [Er Em]. apply negb_true_iff, memb_false in Em. eexists. exists (lst ++ [r])%list.
          split; [rewrite app_length, Nat.add_1_r; reflexivity|]. apply Knew; [exact Er|exact Em|apply NoDup_filter, HND|..].
          + rewrite filter_In, Nat.eqb_refl. intros [_ ?]; discriminate.
          + intros x Hx Nx Vx. apply filter_In. split; [apply HN; split; [lia|exact Vx]|]. destruct (Nat.eqb_spec x r); [contradiction|reflexivity].
          + intros x Hx. apply filter_In in Hx. destruct Hx as [Hx _]. apply HN in Hx. rewrite H1 in Hx. exact Hx.
          + intros M0 k. right. reflexivity.
        - exists M, lst. split; [reflexivity|]. apply Kold. intros x Hx. pose proof (find_none _ _ Ef x Hx) as Hm. apply negb_false_iff, memb_spec in Hm. exact Hm. }
      destruct nz as [|r [|r2 nz']] eqn:Enz; [exact Kmulti| |exact Kmulti]. clear Kmulti.
      destruct (memb r lst) eqn:Em.
      - exists M, lst. split; [reflexivity|]. apply Kold. intros x [<-|[]]. apply memb_spec, Em.
      - exists M, (lst ++ [r])%list. split; [rewrite app_length, Nat.add_1_r; reflexivity|]. apply (Knew r [] (fun M k => list_set M k (vxor (row_of M r) (row_of M k)))).
        + left; reflexivity.
        + apply memb_false, Em.
        + constructor.
        + intros [].
        + intros x Hx Nx Vx. assert (HI' : In x [r]) by (apply HN; split; [lia|exact Vx]). destruct HI' as [E|[]]. congruence.
        + intros x [].
        + intros; left; reflexivity. }
    destruct Key as (M1 & lst1 & EK & HK). cbn [reduce_columns]. cbv zeta. rewrite EK. cbn [fst snd].
    destruct (Nat.eqb_spec (length lst1) (length M)) as [Elen|Nlen].
    + destruct HK as [K1 K2 K3 K4 K5 K6 K7]. repeat (split; [assumption|]). intros r Hr. rewrite K1 in *. left. apply K6.
      assert (Hincl : incl (seq 0 l) lst1).
      { apply NoDup_length_incl; [exact K4| |]. - rewrite seq_length. destruct HI as [HIl _ _ _ _ _ _]. lia. - intros x Hx. apply in_seq. specialize (K5 x Hx). lia. }
      apply Hincl, in_seq. lia.
    + apply (IH (fun x => done x \/ x = c)); [intros x Hx; apply Hc; right; exact Hx| |exact HK].
      intros x Hx. destruct (Hall x Hx) as [Hd|[<-|Hin]]; [left; left; exact Hd|left; right; reflexivity|right; exact Hin].
Qed.
Theorem reduce_spec n M cols : wide (2 * n) M -> (forall c, In c cols <-> n <= c < 2 * n) ->
  let M' := reduce_columns cols M [] 0 in length M' = length M /\ wide (2 * n) M' /\ requiv (length M) (view M) (view M') /\ Reduced n M'.
Proof.
  intros HW Hc. apply (reduce_loop n (length M) (view M) cols (fun _ => False) M []).
  - intros c; apply Hc.
  - intros c Hcc. right. apply Hc, Hcc.
  - constructor; [reflexivity|exact HW|apply rq_eq; reflexivity|constructor|intros ? []|intros ? []|intros ? ? []].
Qed.

(** ---- pairing with sigma_x ---- *)
Lemma pair_fold M n : forall is s, length s = length M ->
  let s' := fold_left (fun s i => match column_nonzeros M (n + i) with [r] => list_set s r (n - i - 1) | _ => s end) is s in
  length s' = length M /\ forall r, r < length M ->
    (exists i, In i is /\ column_nonzeros M (n + i) = [r] /\ nth r s' 0 = n - i - 1) \/
    ((forall i, In i is -> column_nonzeros M (n + i) <> [r]) /\ nth r s' 0 = nth r s 0).
Proof.
  induction is as [|i is IH]; intros s HL.
  - cbn. split; [exact HL|]. intros r Hr. right. split; [intros ? []|reflexivity].
  - cbn [fold_left]. set (s1 := match column_nonzeros M (n + i) with [r] => list_set s r (n - i - 1) | _ => s end).
    assert (L1 : length s1 = length M) by (unfold s1; destruct (column_nonzeros M (n + i)) as [|? [|? ?]]; rewrite ?list_set_length; exact HL).
    destruct (IH s1 L1) as [L2 H2]. split; [exact L2|]. intros r Hr. destruct (H2 r Hr) as [(j & Hj & E1 & E2)|[H3 H4]].
    + left. exists j. split; [right; exact Hj|auto].
    + rewrite H4. unfold s1. destruct (column_nonzeros M (n + i)) as [|x [|y l]] eqn:E.
      * right. split; [|reflexivity]. intros j [<-|Hj]; [rewrite E; discriminate|apply H3, Hj].
      * assert (Hx : x < length M) by (apply (col_nz M (n + i)); rewrite E; left; reflexivity). rewrite nth_list_set by lia.
        destruct (Nat.eqb_spec r x) as [->|N].
        -- left. exists i. split; [left; reflexivity|]. split; [exact E|reflexivity].
        -- right. split; [|reflexivity]. intros j [<-|Hj]; [rewrite E; congruence|apply H3, Hj].
      * right. split; [|reflexivity]. intros j [<-|Hj]; [rewrite E; discriminate|apply H3, Hj].
Qed.
Theorem pair_spec n b M : Reduced n M ->
  length (pair_sigma n b M) = length M /\ forall r, r < length M ->
    (exists i, i < n /\ nth r (pair_sigma n b M) 0 = n - i - 1 /\ view M r (n + i) = true /\ forall x, x < length M -> x <> r -> view M x (n + i) = false) \/
    (forall c, n <= c < 2 * n -> view M r c = false).
Proof.
  intros HR. unfold pair_sigma. destruct (pair_fold M n (if b then seq 0 n else rev (seq 0 n)) (repeat 0 (length M)) (repeat_length 0 (length M))) as [HL HF].
  split; [exact HL|]. intros r Hr.
  assert (Hin : forall i, In i (if b then seq 0 n else rev (seq 0 n)) <-> i < n) by (intros i; destruct b; rewrite <- ?in_rev, in_seq; lia).
  destruct (HF r Hr) as [(i & Hi & E1 & E2)|[H1 _]].
  - left. exists i. split; [apply Hin, Hi|]. split; [exact E2|]. split.
    + apply (col_nz M (n + i)). rewrite E1. left; reflexivity.
    + intros x Hx Nx. destruct (view M x (n + i)) eqn:E; [|reflexivity]. assert (HI : In x [r]) by (rewrite <- E1; apply col_nz; auto). destruct HI as [HI|[]]. congruence.
  - destruct (HR r Hr) as [(c & Hc & V & O)|HZ]; [|right; exact HZ]. exfalso. apply (H1 (c - n)); [apply Hin; lia|]. replace (n + (c - n)) with c by lia.
    apply singleton; [apply col_nodup|apply col_nz; auto|]. intros x Hx. apply col_nz in Hx. destruct Hx as [Hx Vx]. destruct (Nat.eq_dec x r) as [E|N]; [exact E|]. rewrite O in Vx by assumption. discriminate.
Qed.
