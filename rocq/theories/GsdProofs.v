(** Contents of the GSD pool. *)
From Coq Require Import Reals String List Arith NArith ZArith Bool Lia Lra Permutation Sorted.
From Verif Require Import CBase Result Spec SQSpec OperatorModel SQModel SQPhase SQProofs SQPoolSpec SQPoolModel SQPoolProofs SQPoolOps GsdModel.
Import ListNotations.
Local Open Scope nat_scope.

Lemma foreach_flat {A B S} (f : A -> list B) (body : B -> S -> res S) l : forall s, foreach l (fun x s => foreach (f x) body s) s = foreach (flat_map f l) body s.
Proof. induction l as [|x r IH]; intros s; [reflexivity|]. cbn [flat_map foreach]. rewrite foreach_app. destruct (foreach (f x) body s); cbn [bind]; [apply IH|reflexivity]. Qed.

(** the operator sign * (T - T^dagger) in the order of std::map *)
Definition gop (sg : C) (P H : list nat) : list fterm :=
  if pair_ltb (P, H) (H, P) then [((sg, P), H); ((- sg, H), P)]%C else [((- sg, H), P); ((sg, P), H)]%C.
Definition unit_sign (c : C) : Prop := c = C1 \/ c = (- C1)%C.
Lemma sgn_unit b : unit_sign (sgn b).
Proof. destruct b; [right|left]; reflexivity. Qed.
Lemma unit_mul a b : unit_sign a -> unit_sign b -> unit_sign (a * b)%C.
Proof. intros [->| ->] [->| ->]; [left|right|right|left]; ring. Qed.
Lemma unit_abs a : unit_sign a -> Cabs a = 1%R.
Proof. intros [->| ->]; rewrite ?Cabs_neg; apply Cabs_C1. Qed.

Lemma pair_ltb_asym a b : pair_ltb a b = true -> pair_ltb b a = false.
Proof. intros H. destruct (pair_ltb b a) eqn:E; [|reflexivity]. pose proof (pair_ltb_trans _ _ _ H E) as F. rewrite pair_ltb_irrefl in F. discriminate. Qed.
(** p - h and its adjoint, after sorting *)
Lemma sq_simplify_two srt l1 l2 P H : legal_sort srt -> dsorted P -> dsorted H -> Permutation l1 P -> Permutation l2 H -> length l1 = length l2 ->
  Nat.odd (inversions (rev l1)) = xorb (Nat.odd (inversions l1)) (Nat.odd (inversions (rev l2) + inversions l2)) ->
  sq_simplify srt (sq_add_term (sq_add_term [] C1 l1 l2) (- C1)%C (rev l2) (rev l1)) =
    Ok (if list_eq_dec Nat.eq_dec P H then [] else gop (sgn (Nat.odd (inversions l1)) * sgn (Nat.odd (inversions l2)))%C P H).
Proof.
  intros HS HP HH P1 P2 HL HR. unfold sq_simplify, sq_canonical_order, sq_add_term. cbn [app mapM].
  rewrite (canon_single srt _ l1 l2 P H HS HP HH P1 P2). cbn [bind].
  rewrite (canon_single srt _ (rev l2) (rev l1) H P HS HH HP) by (etransitivity; [symmetry; apply Permutation_rev|assumption]). cbn [bind].
  rewrite HR, Nat.odd_add. set (x := Nat.odd (inversions l1)). set (y := Nat.odd (inversions l2)). set (z := Nat.odd (inversions (rev l2))).
  assert (E : (- C1 * sgn z * sgn (xorb x (xorb z y)))%C = (- (sgn x * sgn y))%C) by (destruct x, y, z; unfold sgn; cbn [xorb]; ring). rewrite E.
  replace (C1 * sgn x * sgn y)%C with (sgn x * sgn y)%C by ring. set (sg := (sgn x * sgn y)%C).
  assert (U : unit_sign sg) by (apply unit_mul; apply sgn_unit). pose proof (unit_abs sg U) as Ab.
  unfold fcre, fann, fcoef. cbn [fold_left fst snd sq_accumulate].
  assert (K1 : Rltb 1e-12 (Cabs sg) = true) by (apply Rltb_true; rewrite Ab; lra). assert (K2 : Rltb 1e-12 (Cabs (- sg)) = true) by (apply Rltb_true; rewrite Cabs_neg, Ab; lra).
  destruct (list_eq_dec Nat.eq_dec P H) as [->|N].
  - rewrite pair_ltb_irrefl. replace (sg + - sg)%C with C0 by ring. cbn [filter snd]. assert (K0 : Rltb 1e-12 (Cabs C0) = false).
    { destruct (Rltb_spec 1e-12 (Cabs C0)) as [B|]; [|reflexivity]. rewrite Cabs_C0 in B. lra. }
    rewrite K0. reflexivity.
  - unfold gop. destruct (pair_ltb (H, P) (P, H)) eqn:E1.
    + rewrite (pair_ltb_asym _ _ E1). cbn [filter snd fst]. rewrite K1, K2. reflexivity.
    + destruct (pair_ltb (P, H) (H, P)) eqn:E2.
      * cbn [filter snd fst]. rewrite K1, K2. reflexivity.
      * exfalso. pose proof (pair_ltb_total _ _ E1 E2) as E'. injection E' as E' _. congruence.
Qed.

Definition two (x y : nat) : list nat := if Nat.ltb y x then [x; y] else [y; x].
Lemma two_perm x y : Permutation [x; y] (two x y).
Proof. unfold two. destruct (Nat.ltb_spec y x); [reflexivity | apply perm_swap]. Qed.
Lemma two_sorted x y : x <> y -> dsorted (two x y).
Proof. intros N. unfold two. destruct (Nat.ltb_spec y x); (constructor; [constructor; [constructor|constructor] | constructor; [lia|constructor]]). Qed.
Lemma two_inv x y : x <> y -> inversions [x; y] = (if Nat.ltb x y then 1 else 0).
Proof. intros N. unfold inversions. cbn [filter]. destruct (Nat.ltb_spec x y); reflexivity. Qed.
Definition two_op (p q r s : nat) : list fterm := gop (sgn (Nat.ltb p q) * sgn (Nat.ltb r s))%C (two p q) (two r s).
Lemma double_simplify srt p q r s : legal_sort srt -> p <> q -> r <> s ->
  sq_simplify srt (sq_add_term (sq_add_term [] C1 [p; q] [r; s]) (- C1)%C [s; r] [q; p]) =
    Ok (if list_eq_dec Nat.eq_dec (two p q) (two r s) then [] else two_op p q r s).
Proof.
  intros HS N1 N2. change [s; r] with (rev [r; s]). change [q; p] with (rev [p; q]).
  rewrite (sq_simplify_two srt [p; q] [r; s] (two p q) (two r s)); auto using two_perm, two_sorted.
  - unfold two_op. rewrite !two_inv by assumption. f_equal. destruct (list_eq_dec _ _ _); [reflexivity|]. destruct (Nat.ltb p q), (Nat.ltb r s); reflexivity.
  - cbn [rev app]. rewrite !two_inv by congruence. destruct (Nat.ltb_spec p q), (Nat.ltb_spec q p), (Nat.ltb_spec r s), (Nat.ltb_spec s r); try lia; reflexivity.
Qed.
Lemma single_simplify srt a i : legal_sort srt -> a <> i ->
  sq_simplify srt (sq_add_term (sq_add_term [] C1 [a] [i]) (- C1)%C [i] [a]) = Ok (gop C1 [a] [i]).
Proof.
  intros HS N. change [i] with (rev [i]) at 2. change [a] with (rev [a]) at 2.
  rewrite (sq_simplify_two srt [a] [i] [a] [i]); auto; [|constructor; constructor|constructor; constructor].
  destruct (list_eq_dec Nat.eq_dec [a] [i]) as [E|_]; [congruence|]. cbn [inversions filter length Nat.add Nat.odd Nat.even negb]. change (Nat.odd 0) with false. change (sgn false) with C1.
  replace (C1 * C1)%C with C1 by ring. reflexivity.
Qed.

(** the smaller of (P, H) and (H, P) identifies an operator *)
Definition key (P H : list nat) : list nat * list nat := if pair_ltb (P, H) (H, P) then (P, H) else (H, P).
Definition Rep (e : C * list fterm) (k : list nat * list nat) : Prop :=
  fst e = C1 /\ exists sg, unit_sign sg /\ snd e = [((sg, fst k), snd k); ((- sg, snd k), fst k)]%C.
Lemma gop_rep sg P H : unit_sign sg -> Rep (C1, gop sg P H) (key P H).
Proof.
  intros U. split; [reflexivity|]. unfold gop, key. destruct (pair_ltb (P, H) (H, P)); cbn [fst snd].
  - exists sg. auto.
  - exists (- sg)%C. split; [destruct U as [->| ->]; [right; reflexivity | left; ring]|]. replace (- - sg)%C with sg by ring. reflexivity.
Qed.

(** ---- singles ---- *)
Definition single_cands (irreps : list N) (norb : nat) : list (nat * nat) :=
  flat_map (fun i => flat_map (fun a => if N.eqb (total_irrep irreps [2 * i; 2 * a]) 0 then [(2 * a, 2 * i); (2 * a + 1, 2 * i + 1)] else []) (seq i (norb - i))) (seq 0 norb).
Lemma irreps_in irreps norb l : norb <= length irreps -> Forall (fun p => p < 2 * norb) l -> find_irrep irreps l = Ok (total_irrep irreps l).
Proof. intros L F. apply find_irrep_ok. eapply Forall_impl; [|exact F]. cbn beta. intros p Lp. assert (p / 2 < norb) by (apply Nat.div_lt_upper_bound; lia). lia. Qed.
Lemma foreach_ext2 {A S} l (b1 b2 : A -> S -> res S) s : (forall x s, In x l -> b1 x s = b2 x s) -> foreach l b1 s = foreach l b2 s.
Proof. apply foreach_ext. Qed.
Lemma singles_flat srt irreps norb pool : norb <= length irreps ->
  gsd_singles srt irreps norb pool = foreach (single_cands irreps norb) (fun c => gsd_single srt (fst c) (snd c)) pool.
Proof.
  intros L. unfold gsd_singles, single_cands. rewrite <- foreach_flat. apply foreach_ext. intros i s Ii. rewrite <- foreach_flat. apply foreach_ext. intros a s' Ia.
  apply in_seq in Ii. apply in_seq in Ia. rewrite (irreps_in irreps norb) by (exact L || (constructor; [lia|constructor; [lia|constructor]])). cbn [bind].
  destruct (N.eqb _ _); [|reflexivity]. cbn [foreach fst snd]. destruct (gsd_single srt (2 * a) (2 * i) s'); cbn [bind]; [|reflexivity]. destruct (gsd_single _ _ _ _); reflexivity.
Qed.
Lemma single_step srt a i pool : legal_sort srt -> gsd_single srt a i pool = Ok (pool ++ if Nat.eqb a i then [] else [(C1, gop C1 [a] [i])])%list.
Proof.
  intros HS. unfold gsd_single. destruct (Nat.eqb_spec a i) as [|N]; [now rewrite app_nil_r|]. rewrite single_simplify by assumption. cbn [bind].
  unfold gop. destruct (pair_ltb _ _); reflexivity.
Qed.
Lemma singles_run srt cs : legal_sort srt -> forall pool, foreach cs (fun c => gsd_single srt (fst c) (snd c)) pool =
  Ok (pool ++ map (fun c => (C1, gop C1 [fst c] [snd c])) (filter (fun c => negb (Nat.eqb (fst c) (snd c))) cs))%list.
Proof.
  intros HS. induction cs as [|c r IH]; intros pool; [cbn; now rewrite app_nil_r|]. cbn [foreach]. rewrite single_step by exact HS. cbn [bind]. rewrite IH. f_equal. rewrite <- app_assoc. f_equal.
  cbn [filter]. destruct (Nat.eqb _ _); reflexivity.
Qed.
Lemma single_cands_in irreps norb a i : In (a, i) (single_cands irreps norb) <->
  i <= a /\ a < 2 * norb /\ Nat.even a = Nat.even i /\ total_irrep irreps [a; i] = 0%N.
Proof.
  assert (TI : forall x y, total_irrep irreps [x; y] = N.lxor (nth (x / 2) irreps 0%N) (nth (y / 2) irreps 0%N)) by (intros; unfold total_irrep; cbn [map fold_right]; now rewrite N.lxor_0_r).
  assert (D0 : forall k, (2 * k) / 2 = k) by (intros; rewrite Nat.mul_comm; apply Nat.div_mul; lia).
  assert (D1 : forall k, (2 * k + 1) / 2 = k) by (intros k; symmetry; apply (Nat.div_unique _ 2 k 1); lia).
  assert (E0 : forall k, Nat.even (2 * k) = true) by (intros; now rewrite Nat.even_mul).
  assert (E1 : forall k, Nat.even (2 * k + 1) = false) by (intros; rewrite Nat.even_add, E0; reflexivity).
  unfold single_cands. rewrite in_flat_map. split.
  - intros (i' & Ii & I). apply in_flat_map in I. destruct I as (a' & Ia & I). apply in_seq in Ii. apply in_seq in Ia.
    rewrite TI, !D0 in I. destruct (N.eqb_spec (N.lxor (nth i' irreps 0%N) (nth a' irreps 0%N)) 0) as [Z|]; [|destruct I].
    rewrite N.lxor_comm in Z. rewrite TI. destruct I as [E|[E|[]]]; apply pair_equal_spec in E; destruct E as (<- & <-); rewrite ?D0, ?D1, ?E0, ?E1; repeat split; try lia; exact Z.
  - intros (L1 & L2 & Ev & Z). rewrite TI in Z. exists (i / 2). split; [apply in_seq; split; [lia|]; apply Nat.div_lt_upper_bound; lia|].
    apply in_flat_map. exists (a / 2). pose proof (Nat.div_le_mono i a 2 ltac:(lia) L1). split; [apply in_seq; split; [exact H|]; assert (a / 2 < norb) by (apply Nat.div_lt_upper_bound; lia); lia|].
    rewrite TI, !D0, N.lxor_comm, Z. cbn [N.eqb].
    destruct (Nat.Even_or_Odd a) as [(x & ->)|(x & ->)], (Nat.Even_or_Odd i) as [(y & ->)|(y & ->)]; rewrite ?E0, ?E1, ?D0, ?D1 in *; try discriminate; [now left | right; now left].
Qed.
Lemma single_cands_nodup irreps norb : NoDup (single_cands irreps norb).
Proof.
  apply NoDup_flat_map; [apply seq_NoDup| |].
  - intros i _. apply NoDup_flat_map; [apply seq_NoDup| |].
    + intros a _. destruct (N.eqb _ _); [|constructor]. constructor; [|constructor; [intros []|constructor]]. intros [E|[]]. injection E as E _. lia.
    + intros a b z _ _ I1 I2. destruct (N.eqb _ _) in I1; [|destruct I1]. destruct (N.eqb _ _) in I2; [|destruct I2]. destruct I1 as [<-|[<-|[]]], I2 as [E|[E|[]]]; injection E; lia.
  - intros i j z _ _ I1 I2. apply in_flat_map in I1. apply in_flat_map in I2. destruct I1 as (a & _ & I1). destruct I2 as (b & _ & I2).
    destruct (N.eqb _ _) in I1; [|destruct I1]. destruct (N.eqb _ _) in I2; [|destruct I2]. destruct I1 as [<-|[<-|[]]], I2 as [E|[E|[]]]; injection E; lia.
Qed.

(** ---- doubles ---- *)
Definition cand := (nat * nat * (nat * nat))%type.
Definition six (i j a b : nat) : list cand :=
  let ia := 2 * i in let ib := 2 * i + 1 in let ja := 2 * j in let jb := 2 * j + 1 in
  let aa := 2 * a in let ab := 2 * a + 1 in let ba := 2 * b in let bb := 2 * b + 1 in
  [((aa, ba), (ia, ja)); ((ab, bb), (ib, jb)); ((aa, bb), (ia, jb)); ((ab, ba), (ib, ja)); ((aa, bb), (ib, ja)); ((ab, ba), (ia, jb))].
Definition double_cands (irreps : list N) (norb : nat) : list cand :=
  flat_map (fun i => flat_map (fun j => flat_map (fun a => flat_map (fun b =>
    if N.eqb (total_irrep irreps [2 * i; 2 * j; 2 * a; 2 * b]) 0 then six i j a b else []) (seq a (norb - a))) (seq 0 norb)) (seq i (norb - i))) (seq 0 norb).
Definition dbody srt (c : cand) := gsd_double srt (fst (fst c)) (snd (fst c)) (fst (snd c)) (snd (snd c)).
Lemma doubles_flat srt irreps norb st : norb <= length irreps -> gsd_doubles srt irreps norb st = foreach (double_cands irreps norb) (dbody srt) st.
Proof.
  intros L. unfold gsd_doubles, double_cands. rewrite <- foreach_flat. apply foreach_ext. intros i s1 Ii. rewrite <- foreach_flat. apply foreach_ext. intros j s2 Ij.
  rewrite <- foreach_flat. apply foreach_ext. intros a s3 Ia. rewrite <- foreach_flat. apply foreach_ext. intros b s4 Ib. cbv zeta.
  apply in_seq in Ii. apply in_seq in Ij. apply in_seq in Ia. apply in_seq in Ib.
  rewrite (irreps_in irreps norb) by (exact L || (repeat (constructor; [lia|]); constructor)). cbn [bind].
  destruct (N.eqb _ _); [|reflexivity]. unfold six, dbody. cbv zeta. cbn [foreach fst snd].
  repeat (match goal with |- context [bind ?e _] => destruct e end; cbn [bind]; [|reflexivity]). reflexivity.
Qed.
Definition live (c : cand) : bool :=
  negb (Nat.eqb (fst (fst c)) (snd (fst c))) && negb (Nat.eqb (fst (snd c)) (snd (snd c))) &&
  (if list_eq_dec Nat.eq_dec (two (fst (fst c)) (snd (fst c))) (two (fst (snd c)) (snd (snd c))) then false else true).
Definition ckey (c : cand) := key (two (fst (fst c)) (snd (fst c))) (two (fst (snd c)) (snd (snd c))).
Definition swap (k : list nat * list nat) := (snd k, fst k).
Definition canonk (k : list nat * list nat) : Prop := length (fst k) = 2 /\ length (snd k) = 2 /\ pair_ltb k (swap k) = true.
Definition vec (k : list nat * list nat) : list nat := (fst k ++ snd k)%list.
Lemma vec_inj k k' : length (fst k) = 2 -> length (fst k') = 2 -> vec k = vec k' -> k = k'.
Proof.
  destruct k as [[|x [|y [|]]] b], k' as [[|x' [|y' [|]]] b']; try discriminate. intros _ _ E. unfold vec in E. cbn in E. injection E as -> -> ->. reflexivity.
Qed.
Lemma found_spec v l : found v l = true <-> In v l.
Proof.
  unfold found. rewrite existsb_exists. split.
  - intros (w & I & E). destruct (list_eq_dec Nat.eq_dec v w) as [->|]; [exact I|discriminate].
  - intros I. exists v. split; [exact I|]. destruct (list_eq_dec Nat.eq_dec v v); [reflexivity|contradiction].
Qed.
Lemma two_length x y : length (two x y) = 2.
Proof. unfold two. destruct (Nat.ltb y x); reflexivity. Qed.
Lemma key_canon c : live c = true -> canonk (ckey c).
Proof.
  unfold live, ckey, key, canonk, swap. intros H. apply andb_prop in H. destruct H as (_ & H).
  destruct (list_eq_dec Nat.eq_dec _ _) as [|N] in H; [discriminate|].
  destruct (pair_ltb (two (fst (fst c)) (snd (fst c)), two (fst (snd c)) (snd (snd c))) (two (fst (snd c)) (snd (snd c)), two (fst (fst c)) (snd (fst c)))) eqn:E; cbn [fst snd]; rewrite !two_length; repeat split; auto.
  destruct (pair_ltb (two (fst (snd c)) (snd (snd c)), two (fst (fst c)) (snd (fst c))) _) eqn:E2; [reflexivity|]. pose proof (pair_ltb_total _ _ E E2) as E3. injection E3 as E3 _. contradiction.
Qed.
Lemma four_vec c P H : length P = 2 -> length H = 2 -> four_indices ((c, P), H) = Ok (vec (P, H)).
Proof. destruct P as [|x [|y [|]]], H as [|z [|w [|]]]; try discriminate. reflexivity. Qed.
Lemma double_step srt c pool K : legal_sort srt -> Forall canonk K ->
  dbody srt c (pool, map vec K, map (fun k => vec (swap k)) K) =
    Ok (if live c && negb (found (vec (ckey c)) (map vec K)) then
          ((pool ++ [(C1, two_op (fst (fst c)) (snd (fst c)) (fst (snd c)) (snd (snd c)))])%list, map vec (K ++ [ckey c]), map (fun k => vec (swap k)) (K ++ [ckey c]))
        else (pool, map vec K, map (fun k => vec (swap k)) K)).
Proof.
  intros HS FK. pose proof (key_canon c) as KC. unfold dbody, gsd_double. unfold live in *. destruct c as ((p, q), (r, s)). unfold ckey in *. cbn [fst snd] in *.
  destruct (Nat.eqb_spec p q) as [|Npq]; [reflexivity|]. destruct (Nat.eqb_spec r s) as [|Nrs]; [reflexivity|]. cbn [orb negb andb] in *.
  rewrite double_simplify by assumption. cbn [bind]. destruct (list_eq_dec Nat.eq_dec (two p q) (two r s)) as [|NE]; [reflexivity|]. specialize (KC eq_refl).
  assert (V : exists t0 t1, two_op p q r s = [t0; t1] /\ four_indices t0 = Ok (vec (key (two p q) (two r s))) /\ four_indices t1 = Ok (vec (swap (key (two p q) (two r s))))).
  { unfold two_op, gop, key. destruct (pair_ltb _ _); do 2 eexists; (split; [reflexivity|]); split; apply four_vec; apply two_length. }
  destruct V as (t0 & t1 & E & F0 & F1). rewrite E. cbn [length Nat.ltb Nat.leb vget nth_error bind]. rewrite F0. cbn [bind]. rewrite F1. cbn [bind andb fst snd].
  set (k := key (two p q) (two r s)) in *.
  assert (NA : found (vec k) (map (fun k => vec (swap k)) K) = false).
  { destruct (found _ _) eqn:Fd; [|reflexivity]. exfalso. apply found_spec, in_map_iff in Fd. destruct Fd as (k' & Ev & Ik). rewrite Forall_forall in FK. destruct (FK k' Ik) as (L1 & L2 & L3).
    destruct KC as (M1 & M2 & M3). symmetry in Ev. apply vec_inj in Ev; [|assumption|exact L2]. rewrite Ev in M3. replace (swap (swap k')) with k' in M3 by (destruct k'; reflexivity).
    rewrite (pair_ltb_asym _ _ M3) in L3. discriminate. }
  rewrite NA. cbn [negb]. destruct (found (vec k) (map vec K)); cbn [negb]; [reflexivity|]. rewrite !map_app. reflexivity.
Qed.
Lemma doubles_run srt cs : legal_sort srt -> forall pool K, Forall canonk K -> NoDup K ->
  exists added K', foreach cs (dbody srt) (pool, map vec K, map (fun k => vec (swap k)) K) = Ok ((pool ++ added)%list, map vec (K ++ K'), map (fun k => vec (swap k)) (K ++ K')) /\
    Forall canonk K' /\ NoDup (K ++ K') /\ Forall2 Rep added K' /\ (forall k, In k (K ++ K') <-> In k K \/ exists c, In c cs /\ live c = true /\ ckey c = k).
Proof.
  intros HS. induction cs as [|c r IH]; intros pool K FK ND.
  - exists [], []. rewrite !app_nil_r. split; [reflexivity|]. split; [constructor|]. split; [exact ND|]. split; [constructor|]. intros k. split; [auto|]. intros [I|(c & [] & _)]; exact I.
  - cbn [foreach]. rewrite double_step by assumption. cbn [bind].
    destruct (live c) eqn:Lv; cbn [andb]; [destruct (found (vec (ckey c)) (map vec K)) eqn:Fd; cbn [negb]|].
    + destruct (IH pool K FK ND) as (added & K' & E & C1' & C2 & C3 & C4). exists added, K'. repeat (split; [assumption|]). intros k. rewrite C4. split; intros [I|(d & I & H)]; auto.
      * right. exists d. split; [now right|exact H].
      * destruct I as [<-|I]; [|right; exists d; auto]. left. destruct H as (_ & <-). apply found_spec, in_map_iff in Fd. destruct Fd as (k' & Ev & Ik).
        rewrite Forall_forall in FK. destruct (FK k' Ik) as (L1 & _). destruct (key_canon c Lv) as (M1 & _). apply vec_inj in Ev; auto. now subst k'.
    + assert (Ni : ~ In (ckey c) K) by (intros I; rewrite <- not_true_iff_false in Fd; apply Fd, found_spec, in_map; exact I).
      destruct (IH (pool ++ [(C1, two_op (fst (fst c)) (snd (fst c)) (fst (snd c)) (snd (snd c)))])%list (K ++ [ckey c])) as (added & K' & E & C1' & C2 & C3 & C4).
      { apply Forall_app. split; [exact FK|]. constructor; [now apply key_canon|constructor]. }
      { apply NoDup_rev in ND. rewrite <- (rev_involutive (K ++ [ckey c])). apply NoDup_rev. rewrite rev_app_distr. cbn. constructor; [now rewrite <- in_rev|exact ND]. }
      exists ((C1, two_op (fst (fst c)) (snd (fst c)) (fst (snd c)) (snd (snd c))) :: added), (ckey c :: K'). split; [etransitivity; [exact E|]; rewrite <- !app_assoc; reflexivity|]. rewrite <- !app_assoc in *. cbn [app] in *.
      split; [constructor; [now apply key_canon|exact C1']|]. split; [exact C2|]. split.
      { constructor; [|exact C3]. apply gop_rep. apply unit_mul; apply sgn_unit. }
      intros k. split; [intros I0; apply C4 in I0; revert I0; rewrite in_app_iff; cbn [In] | intros I0; apply C4; revert I0; rewrite in_app_iff; cbn [In]].
      * intros [[I|[<-|[]]]|(d & I & H)]; [auto | right; exists c; auto | right; exists d; auto].
      * intros [I|(d & [<-|I] & H)]; [auto | left; right; left; apply H | right; exists d; auto].
    + destruct (IH pool K FK ND) as (added & K' & E & C1' & C2 & C3 & C4). exists added, K'. repeat (split; [assumption|]). intros k. rewrite C4. split; intros [I|(d & I & H)]; auto.
      * right. exists d. split; [now right|exact H].
      * destruct I as [<-|I]; [destruct H as (H & _); congruence | right; exists d; auto].
Qed.
