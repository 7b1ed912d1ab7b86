(** C59: the pool of generalised singles and doubles ("GSD"). *)
From Coq Require Import Reals String List Arith NArith ZArith Bool Lia Lra Permutation Sorted.
From Verif Require Import CBase Result Spec SQSpec OperatorModel SQModel SQPhase SQProofs SQPoolSpec SQPoolModel SQPoolProofs SQPoolOps GsdModel GsdProofs.
From Verif Require Import LoopProofs PropPool.
From Verif Require PropSQ.
Import ListNotations.
Local Open Scope nat_scope.

(** P and H are the sets of spin orbitals (listed from the highest) of a spin- and
    symmetry-conserving replacement of one or two electrons among 2m spin orbitals *)
Definition Generalized (m : nat) (irreps : list N) (P H : list nat) : Prop :=
  (length P = 1 \/ length P = 2) /\ length H = length P /\ P <> H /\
  StronglySorted (fun a b => b < a) P /\ StronglySorted (fun a b => b < a) H /\
  (forall p, In p P \/ In p H -> p < 2 * m) /\
  length (filter Nat.even P) = length (filter Nat.even H) /\
  total_irrep irreps (P ++ H) = 0%N.
(** the pool entry is T - T^dagger or T^dagger - T, with T = P^dagger H *)
Definition Replaces (e : C * list fterm) (P H : list nat) : Prop :=
  fst e = C1 /\ exists sg, (sg = C1 \/ sg = - C1)%C /\ Permutation (snd e) [((sg, P), H); ((- sg, H), P)]%C.

Lemma total_perm irreps l l' : Permutation l l' -> total_irrep irreps l = total_irrep irreps l'.
Proof.
  unfold total_irrep. induction 1; cbn [map fold_right]; [reflexivity|congruence| |congruence].
  rewrite <- !N.lxor_assoc. f_equal. apply N.lxor_comm.
Qed.
Lemma total_halves irreps l l' : map (fun p => p / 2) l = map (fun p => p / 2) l' -> total_irrep irreps l = total_irrep irreps l'.
Proof.
  unfold total_irrep. rewrite <- (map_map (fun p => p / 2) (fun q => nth q irreps 0%N) l), <- (map_map (fun p => p / 2) (fun q => nth q irreps 0%N) l'). now intros ->.
Qed.
Lemma generalized_swap m irreps P H : Generalized m irreps P H -> Generalized m irreps H P.
Proof.
  intros (A & B & C & D & E & F & G & I). split; [rewrite B; exact A|]. split; [congruence|]. split; [congruence|]. split; [exact E|]. split; [exact D|].
  split; [intros p [X|X]; apply F; tauto|]. split; [congruence|]. rewrite (total_perm irreps (H ++ P) (P ++ H)); [exact I | apply Permutation_app_comm].
Qed.
Lemma div_even k : (2 * k) / 2 = k.
Proof. rewrite Nat.mul_comm. apply Nat.div_mul. lia. Qed.
Lemma div_odd k : (2 * k + 1) / 2 = k.
Proof. symmetry. apply (Nat.div_unique _ 2 k 1); lia. Qed.
Lemma even_even k : Nat.even (2 * k) = true.
Proof. now rewrite Nat.even_mul. Qed.
Lemma even_odd k : Nat.even (2 * k + 1) = false.
Proof. rewrite Nat.even_add, even_even. reflexivity. Qed.

Lemma double_cands_in irreps norb c : In c (double_cands irreps norb) <->
  exists i j a b, i <= j < norb /\ a <= b < norb /\ total_irrep irreps [2 * i; 2 * j; 2 * a; 2 * b] = 0%N /\ In c (six i j a b).
Proof.
  unfold double_cands. rewrite in_flat_map. split.
  - intros (i & Ii & I). apply in_flat_map in I. destruct I as (j & Ij & I). apply in_flat_map in I. destruct I as (a & Ia & I). apply in_flat_map in I. destruct I as (b & Ib & I).
    apply in_seq in Ii, Ij, Ia, Ib. destruct (N.eqb_spec (total_irrep irreps [2 * i; 2 * j; 2 * a; 2 * b]) 0); [|destruct I]. exists i, j, a, b. repeat split; try lia; assumption.
  - intros (i & j & a & b & Lij & Lab & Z & I). exists i. split; [apply in_seq; lia|]. apply in_flat_map. exists j. split; [apply in_seq; lia|].
    apply in_flat_map. exists a. split; [apply in_seq; lia|]. apply in_flat_map. exists b. split; [apply in_seq; lia|]. rewrite Z. exact I.
Qed.
Lemma filter_two x y : length (filter Nat.even (two x y)) = (if Nat.even x then 1 else 0) + (if Nat.even y then 1 else 0).
Proof. unfold two. destruct (Nat.ltb y x); cbn [filter]; destruct (Nat.even x), (Nat.even y); reflexivity. Qed.
Lemma two_in x y p : In p (two x y) <-> p = x \/ p = y.
Proof. unfold two. destruct (Nat.ltb y x); cbn; intuition. Qed.
Lemma six_spec i j a b c : In c (six i j a b) ->
  (fst (snd c) / 2 = i /\ snd (snd c) / 2 = j /\ fst (fst c) / 2 = a /\ snd (fst c) / 2 = b) /\
  (if Nat.even (fst (fst c)) then 1 else 0) + (if Nat.even (snd (fst c)) then 1 else 0) = (if Nat.even (fst (snd c)) then 1 else 0) + (if Nat.even (snd (snd c)) then 1 else 0).
Proof.
  unfold six. cbv zeta. intros I. repeat (destruct I as [<-|I]; [cbn [fst snd map]; rewrite ?div_even, ?div_odd, ?even_even, ?even_odd; repeat split; reflexivity|]). destruct I.
Qed.
Lemma half_lt p n : p / 2 < n -> p < 2 * n.
Proof. intros L. pose proof (Nat.div_mod p 2 ltac:(lia)). pose proof (Nat.mod_upper_bound p 2 ltac:(lia)). lia. Qed.
Lemma cand_generalized irreps norb c : In c (double_cands irreps norb) -> live c = true ->
  Generalized norb irreps (two (fst (fst c)) (snd (fst c))) (two (fst (snd c)) (snd (snd c))).
Proof.
  intros I L. apply double_cands_in in I. destruct I as (i & j & a & b & Lij & Lab & Z & I). apply six_spec in I. destruct I as (Hv & Ev).
  destruct c as ((p, q), (r, s)). cbn [fst snd map] in *. destruct Hv as (<- & <- & <- & <-).
  unfold live in L. cbn [fst snd] in L. destruct (Nat.eqb_spec p q); [discriminate|]. destruct (Nat.eqb_spec r s); [discriminate|]. destruct (list_eq_dec Nat.eq_dec (two p q) (two r s)) as [|Ne]; [discriminate|]. clear L.
  split; [right; apply two_length|]. split; [now rewrite !two_length|]. split; [exact Ne|]. split; [now apply two_sorted|]. split; [now apply two_sorted|]. split.
  { intros x [X|X]; apply two_in in X; destruct X as [-> | ->]; apply half_lt; lia. }
  split; [rewrite !filter_two; exact Ev|].
  rewrite (total_perm irreps _ ([r; s] ++ [p; q])).
  - rewrite <- Z. apply total_halves. cbn [app map]. now rewrite !div_even.
  - rewrite Permutation_app_comm. apply Permutation_app; symmetry; apply two_perm.
Qed.
Lemma pattern x : x = 2 * (x / 2) /\ Nat.even x = true \/ x = 2 * (x / 2) + 1 /\ Nat.even x = false.
Proof. destruct (Nat.Even_or_Odd x) as [(k & ->)|(k & ->)]; rewrite ?div_even, ?div_odd, ?even_even, ?even_odd; auto. Qed.
Lemma generalized_cand irreps norb P H : length P = 2 -> Generalized norb irreps P H ->
  exists c, In c (double_cands irreps norb) /\ live c = true /\ two (fst (fst c)) (snd (fst c)) = P /\ two (fst (snd c)) (snd (snd c)) = H.
Proof.
  intros L2 (_ & LH & Ne & SP & SH & Bd & Ev & Z). rewrite L2 in LH. destruct P as [|x [|y [|]]]; try discriminate. destruct H as [|z [|w [|]]]; try discriminate.
  inversion SP as [|? ? _ F]; subst. inversion F as [|? ? Lyx _]; subst. inversion SH as [|? ? _ F']; subst. inversion F' as [|? ? Lwz _]; subst. clear F F' SP SH L2 LH.
  assert (T1 : two y x = [x; y]) by (unfold two; destruct (Nat.ltb_spec x y); [lia|reflexivity]).
  assert (T2 : two w z = [z; w]) by (unfold two; destruct (Nat.ltb_spec z w); [lia|reflexivity]).
  exists ((y, x), (w, z)). cbn [fst snd]. split; [|split; [|split; assumption]].
  - apply double_cands_in. exists (w / 2), (z / 2), (y / 2), (x / 2).
    split; [split; [apply Nat.div_le_mono; lia | apply Nat.div_lt_upper_bound; [lia|]; apply Bd; right; now left]|].
    split; [split; [apply Nat.div_le_mono; lia | apply Nat.div_lt_upper_bound; [lia|]; apply Bd; left; now left]|].
    split.
    { rewrite <- Z. rewrite (total_halves irreps [2 * (w / 2); 2 * (z / 2); 2 * (y / 2); 2 * (x / 2)] [w; z; y; x]) by (cbn [map]; now rewrite !div_even).
      apply total_perm. change ([x; y] ++ [z; w]) with (rev [w; z; y; x]). apply Permutation_rev. }
    cbn [filter] in Ev. unfold six. cbv zeta.
    destruct (pattern x) as [(Ex & Px)|(Ex & Px)], (pattern y) as [(Ey & Py)|(Ey & Py)], (pattern z) as [(Ez & Pz)|(Ez & Pz)], (pattern w) as [(Ew & Pw)|(Ew & Pw)];
      rewrite Px, Py, Pz, Pw in Ev; cbn [length] in Ev; try lia; rewrite <- ?Ex, <- ?Ey, <- ?Ez, <- ?Ew; cbn [In]; tauto.
  - unfold live. cbn [fst snd]. destruct (Nat.eqb_spec y x); [lia|]. destruct (Nat.eqb_spec w z); [lia|]. rewrite T1, T2. destruct (list_eq_dec Nat.eq_dec [x; y] [z; w]); [contradiction|reflexivity].
Qed.

Lemma rep_replaces e P H : Rep e (key P H) -> Replaces e P H.
Proof.
  intros (E1 & sg & U & E2). split; [exact E1|]. unfold key in E2. destruct (pair_ltb (P, H) (H, P)); cbn [fst snd] in E2.
  - exists sg. split; [exact U|]. rewrite E2. reflexivity.
  - exists (- sg)%C. split; [destruct U as [->| ->]; [right; reflexivity | left; ring]|]. rewrite E2. replace (- - sg)%C with sg by ring. apply perm_swap.
Qed.
Lemma replaces_key e k P H : Rep e k -> Replaces e P H -> k = (P, H) \/ k = (H, P).
Proof.
  intros (_ & sg & _ & E) (_ & sg' & _ & Pm). rewrite E in Pm. assert (I : In ((sg, fst k), snd k) [((sg', P), H); ((- sg', H), P)]%C) by (eapply Permutation_in; [exact Pm | now left]).
  destruct I as [I|[I|[]]]; injection I as _ -> ->; destruct k; auto.
Qed.
Lemma key_or P H : key P H = (P, H) \/ key P H = (H, P).
Proof. unfold key. destruct (pair_ltb _ _); auto. Qed.
Lemma key_swap P H : key P H = key H P.
Proof.
  unfold key. destruct (pair_ltb (P, H) (H, P)) eqn:E1, (pair_ltb (H, P) (P, H)) eqn:E2; try reflexivity.
  - rewrite (pair_ltb_asym _ _ E1) in E2. discriminate.
  - pose proof (pair_ltb_total _ _ E1 E2) as E. injection E as E _. now rewrite E.
Qed.
Lemma key_idem P H : key (fst (key P H)) (snd (key P H)) = key P H.
Proof. destruct (key_or P H) as [E|E]; rewrite E; cbn [fst snd]; [exact E | rewrite (key_swap H P); exact E]. Qed.
Lemma single_key a i : i < a -> key [a] [i] = ([i], [a]).
Proof. intros L. unfold key, pair_ltb. cbn [fst snd vec_ltb]. destruct (Nat.ltb_spec a i); [lia|]. destruct (Nat.ltb_spec i a); [reflexivity|lia]. Qed.
Lemma single_generalized irreps m a i : i <> a -> In (a, i) (single_cands irreps m) <-> i < a /\ Generalized m irreps [a] [i].
Proof.
  intros Ne. rewrite single_cands_in. split.
  - intros (L1 & L2 & Ev & Z). split; [lia|]. split; [now left|]. split; [reflexivity|]. split; [congruence|]. split; [constructor; constructor|]. split; [constructor; constructor|].
    split; [intros p [[<-|[]]|[<-|[]]]; lia|]. split; [cbn [filter]; rewrite Ev; destruct (Nat.even i); reflexivity|exact Z].
  - intros (L & (_ & _ & _ & _ & _ & Bd & Ev & Z)). split; [lia|]. split; [apply Bd; left; now left|]. split; [|exact Z]. cbn [filter] in Ev. destruct (Nat.even a), (Nat.even i); try reflexivity; discriminate.
Qed.

(** keys and entries of the pool *)
Lemma gsd_keys srt sp m : legal_sort srt -> n_spinorb sp = 2 * m -> m <= length (orb_irreps sp) -> forall pool0,
  exists added K, fill_pool_gsd srt sp pool0 = Ok (pool0 ++ added)%list /\ Forall2 Rep added K /\ NoDup K /\
    (forall k, In k K -> key (fst k) (snd k) = k) /\ forall P H, In (key P H) K <-> Generalized m (orb_irreps sp) P H.
Proof.
  intros HS Hn HI pool0. unfold fill_pool_gsd. rewrite Hn, div_even. rewrite singles_flat, singles_run by assumption. cbn [bind].
  set (cs := filter (fun c => negb (Nat.eqb (fst c) (snd c))) (single_cands (orb_irreps sp) m)). set (A1 := map _ cs).
  rewrite doubles_flat by exact HI. destruct (doubles_run srt (double_cands (orb_irreps sp) m) HS (pool0 ++ A1)%list [] (Forall_nil _) (NoDup_nil _)) as (A2 & K2 & E & Cn & Nd & F2 & Hk).
  cbn [map app] in E, Nd, Hk. rewrite E. cbn [bind fst]. exists (A1 ++ A2)%list, (map (fun c => key [fst c] [snd c]) cs ++ K2)%list.
  assert (Cs : forall a i, In (a, i) cs <-> i < a /\ Generalized m (orb_irreps sp) [a] [i]).
  { intros a i. unfold cs. rewrite filter_In. cbn [fst snd]. rewrite negb_true_iff, Nat.eqb_neq. split; [intros (I & N); apply single_generalized in I; auto | intros (L & G); split; [apply single_generalized; auto; lia|lia]]. }
  split; [now rewrite app_assoc|]. split; [apply Forall2_app; [|exact F2]; unfold A1; clear; induction cs; constructor; [apply gop_rep; now left|assumption]|].
  assert (Ks : forall k, In k (map (fun c => key [fst c] [snd c]) cs) -> length (fst k) = 1).
  { intros k I. apply in_map_iff in I. destruct I as ((a, i) & <- & _). cbn [fst snd]. destruct (key_or [a] [i]) as [-> | ->]; reflexivity. }
  split.
  - apply NoDup_app_disj.
    + assert (Nc : NoDup cs) by (apply NoDup_filter, single_cands_nodup). assert (Lt : forall a i, In (a, i) cs -> i < a) by (intros a i I; now apply Cs in I).
      clear - Nc Lt. induction cs as [|(a, i) r IH]; [constructor|]. inversion Nc; subst. cbn [map]. constructor; [|apply IH; auto; intros; apply Lt; now right].
      intros I. apply in_map_iff in I. destruct I as ((b, j) & E & I). cbn [fst snd] in E. rewrite !single_key in E by (apply Lt; auto using in_eq, in_cons). injection E as -> ->. contradiction.
    + exact Nd.
    + intros k I1 I2. apply Ks in I1. rewrite Forall_forall in Cn. destruct (Cn k I2) as (L & _). lia.
  - split.
    { intros k I. apply in_app_iff in I. destruct I as [I|I]; [apply in_map_iff in I; destruct I as (c & <- & _); apply key_idem|]. apply Hk in I. destruct I as [[]|(c & _ & _ & <-)]. apply key_idem. }
    intros P H. rewrite in_app_iff. split.
    + intros [I|I].
      * apply in_map_iff in I. destruct I as ((a, i) & Ek & I). apply Cs in I. destruct I as (_ & G). cbn [fst snd] in Ek.
        destruct (key_or [a] [i]) as [E1|E1], (key_or P H) as [E2|E2]; rewrite E1, E2 in Ek; injection Ek as <- <-; auto using generalized_swap.
      * apply Hk in I. destruct I as [[]|(c & I & L & Ek)]. pose proof (cand_generalized _ _ _ I L) as G. unfold ckey in Ek.
        set (P' := two _ _) in *. set (H' := two (fst (snd c)) _) in *. destruct (key_or P' H') as [E1|E1], (key_or P H) as [E2|E2]; rewrite E1, E2 in Ek; injection Ek as <- <-; auto using generalized_swap.
    + intros G. destruct (proj1 G) as [L1|L2].
      * left. destruct G as (_ & LH & Ne & G'). rewrite L1 in LH. destruct P as [|a [|]]; try discriminate. destruct H as [|i [|]]; try discriminate.
        assert (G : Generalized m (orb_irreps sp) [a] [i]) by (split; [now left|]; split; [reflexivity|]; split; assumption).
        destruct (Nat.lt_trichotomy i a) as [L|[->|L]]; [| congruence |].
        -- apply in_map_iff. exists (a, i). split; [reflexivity|]. apply Cs. auto.
        -- apply in_map_iff. exists (i, a). split; [cbn [fst snd]; apply key_swap|]. apply Cs. split; [exact L | now apply generalized_swap].
      * right. destruct (generalized_cand _ _ _ _ L2 G) as (c & I & L & <- & <-). apply Hk. right. exists c. auto.
Qed.

(** For every reference and symmetry labelling the pool holds each generalised single and
    double exactly once, up to sign, and nothing else. *)
Theorem C59_gsd_pool : forall srt, legal_sort srt -> forall m ref irreps, length ref = 2 * m -> Irreps m irreps ->
  exists sp pool, set_orb_spaces ref irreps = Ok sp /\ fill_pool_gsd srt sp [] = Ok pool /\
    (forall e, In e pool -> exists P H, Generalized m irreps P H /\ Replaces e P H) /\
    (forall P H, Generalized m irreps P H -> exists! k, exists e, nth_error pool k = Some e /\ Replaces e P H).
Proof.
  intros srt HS m ref irr HL HI. unfold set_orb_spaces. rewrite HL. replace (Nat.odd (2 * m)) with false by (rewrite Nat.odd_mul; reflexivity).
  set (sp := mkSpaces _ _ _ _ _ _ _). assert (Hm : m <= length (orb_irreps sp) /\ forall l, total_irrep (orb_irreps sp) l = total_irrep irr l).
  { unfold sp. cbn [orb_irreps]. destruct HI as [->|HI].
    - rewrite div_even, repeat_length. split; [lia|]. intros l. unfold total_irrep. f_equal. apply map_ext. intros p. transitivity 0%N; [apply nth_repeat|destruct (p / 2); reflexivity].
    - destruct irr as [|x irr]; [cbn in HI; assert (m = 0) by lia; subst m; split; [cbn; lia|reflexivity] | split; [exact HI|reflexivity]]. }
  destruct Hm as (Hm & HT). assert (GG : forall P H, Generalized m (orb_irreps sp) P H <-> Generalized m irr P H) by (intros; unfold Generalized; rewrite HT; reflexivity).
  destruct (gsd_keys srt sp m HS eq_refl Hm []) as (pool & K & E & F & Nd & Ki & Hk). exists sp, pool. split; [reflexivity|]. split; [exact E|].
  assert (NX : forall k e, nth_error pool k = Some e -> exists x, nth_error K k = Some x /\ Rep e x).
  { clear - F. induction F as [|e' x l l' R F IH]; intros [|k] e En; try discriminate; [injection En as <-; exists x; auto | apply IH; exact En]. }
  assert (NX2 : forall k x, nth_error K k = Some x -> exists e, nth_error pool k = Some e /\ Rep e x).
  { clear - F. induction F as [|e' x l l' R F IH]; intros [|k] y En; try discriminate; [injection En as <-; exists e'; auto | apply IH; exact En]. }
  split.
  - intros e I. apply In_nth_error in I. destruct I as (k & En). destruct (NX k e En) as (x & Ex & R). apply nth_error_In in Ex. pose proof (Ki x Ex) as Ek. rewrite <- Ek in Ex, R.
    exists (fst x), (snd x). split; [now apply GG, Hk | now apply rep_replaces].
  - intros P H G. apply GG, Hk, In_nth_error in G. destruct G as (k & Ek). destruct (NX2 k _ Ek) as (e & En & R). exists k. split; [exists e; split; [exact En | now apply rep_replaces]|].
    intros k' (e' & En' & R'). destruct (NX k' e' En') as (x & Ex & Rx). assert (x = key P H).
    { pose proof (nth_error_In _ _ Ex) as Ix. rewrite <- (Ki x Ix). destruct (replaces_key e' x P H Rx R') as [-> | ->]; cbn [fst snd]; [reflexivity | apply key_swap]. }
    subst x. apply (proj1 (NoDup_nth_error K) Nd); [apply nth_error_Some; congruence | congruence].
Qed.
Print Assumptions C59_gsd_pool.
(** two orbitals of different symmetry: only the six replacements that keep the symmetry *)
Example C59_example : Generalized 2 [0%N; 3%N] [3; 2] [1; 0] /\ ~ Generalized 2 [0%N; 3%N] [2] [0] /\ Generalized 2 [] [3; 0] [2; 1].
Proof.
  split; [|split].
  - split; [now right|]. split; [reflexivity|]. split; [discriminate|]. split; [constructor; [constructor; constructor|constructor; [lia|constructor]]|]. split; [constructor; [constructor; constructor|constructor; [lia|constructor]]|].
    split; [cbn; lia|]. split; reflexivity.
  - intros (_ & _ & _ & _ & _ & _ & _ & Z). discriminate Z.
  - split; [now right|]. split; [reflexivity|]. split; [discriminate|]. split; [constructor; [constructor; constructor|constructor; [lia|constructor]]|]. split; [constructor; [constructor; constructor|constructor; [lia|constructor]]|].
    split; [cbn; lia|]. split; reflexivity.
Qed.
