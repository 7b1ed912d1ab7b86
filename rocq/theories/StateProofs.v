(** Reference determinants: build_refprep, ref_to_basis_idx, integer_to_ref, build_eq_dets. *)
From Coq Require Import Reals String List Arith NArith ZArith Lia Bool.
From Verif Require Import CBase Result Bits Spec GateModel ComputerModel SafeProofs GateProofs LibProofs SimProofs CircuitModel GateEval SQSpec SQPoolModel SQPoolSpec FermiProofs CircuitProofs PauliProofs PyModel ThreeQubit ExpCircuit PyApply.
From Verif Require PropPool.
Import ListNotations.
Local Open Scope nat_scope.

Fixpoint xgates (j : nat) (ref : list nat) : list gate :=
  match ref with [] => [] | o :: r => (if Nat.eqb o 0 then [] else [gX1 j]) ++ xgates (S j) r end.
Fixpoint flips (j : nat) (ref : list nat) (I : nat) : nat :=
  match ref with [] => I | o :: r => let J := flips (S j) r I in if Nat.eqb o 0 then J else flip J j end.
Lemma refprep_eq ref : build_refprep ref = Ok (xgates 0 ref).
Proof.
  unfold build_refprep. change (xgates 0 ref) with ([] ++ xgates 0 ref). set (body := fun (jo : nat * nat) (c : list gate) => if Nat.eqb (snd jo) 0 then Ok c else do g <- py_gate2 "X" (fst jo) (fst jo); Ok (c ++ [g])%list).
  enough (G : forall c j, foreach (combine (seq j (length ref)) ref) body c = Ok (c ++ xgates j ref)) by apply G. induction ref as [|o r IH]; intros c j; cbn [length seq combine foreach xgates]; [rewrite app_nil_r; reflexivity|].
  unfold body at 1; cbn [fst snd]. destruct (Nat.eqb o 0); [apply IH|]. rewrite make_X. cbn [bind]. rewrite IH, <- app_assoc. reflexivity.
Qed.
Lemma xgates_act ref : forall j psi I, circ_act (xgates j ref) psi I = psi (flips j ref I).
Proof.
  induction ref as [|o r IH]; intros j psi I; [reflexivity|]. cbn [xgates flips]. rewrite circ_act_app, IH. destruct (Nat.eqb o 0); [reflexivity|].
  unfold circ_act; cbn [fold_left]. unfold gX1. rewrite act_1, ev_X. reflexivity.
Qed.
Lemma bit_flips ref : forall j I q, bit (flips j ref I) q = xorb (bit I q) (Nat.leb j q && negb (Nat.eqb (nth (q - j) ref 0) 0)).
Proof.
  induction ref as [|o r IH]; intros j I q; cbn [flips].
  - destruct (q - j); cbn; rewrite andb_false_r, xorb_false_r; reflexivity.
  - cbv zeta. destruct (Nat.eqb_spec o 0) as [->|n].
    + rewrite IH. f_equal. destruct (Nat.leb_spec (S j) q), (Nat.leb_spec j q); try (exfalso; lia); [replace (q - j) with (S (q - S j)) by lia; reflexivity|replace (q - j) with 0 by lia; reflexivity|reflexivity].
    + rewrite bit_flip, IH. destruct (Nat.eqb_spec q j) as [->|nq].
      * replace (j - j) with 0 by lia. cbn [nth]. rewrite (proj2 (Nat.leb_le j j) (le_n j)). replace (Nat.leb (S j) j) with false by (symmetry; apply Nat.leb_gt; lia). apply Nat.eqb_neq in n. rewrite n. cbn. destruct (bit I j); reflexivity.
      * f_equal. destruct (Nat.leb_spec (S j) q), (Nat.leb_spec j q); try (exfalso; lia); [replace (q - j) with (S (q - S j)) by lia; reflexivity|reflexivity].
Qed.
Lemma xgates_applicable n ref : forall j, j + length ref <= n -> applicable n (xgates j ref).
Proof.
  induction ref as [|o r IH]; intros j H; cbn [xgates]; [apply applicable_nil|]. cbn [length] in H. destruct (Nat.eqb o 0); [apply IH; lia|].
  apply applicable_cons; [apply X1_lib|apply X1_sharp|split; cbn; lia|apply IH; lia].
Qed.
Lemma flips_ket ref I : ket 0 (flips 0 ref I) = ket (flips 0 ref 0) I.
Proof.
  assert (HH : forall J, flips 0 ref (flips 0 ref J) = J).
  { intros J. apply bits_ext. intros q. rewrite !bit_flips. destruct (bit J q), (_ && _); reflexivity. }
  unfold ket. destruct (Nat.eqb_spec (flips 0 ref I) 0) as [e|n], (Nat.eqb_spec I (flips 0 ref 0)) as [e'|n']; try reflexivity.
  - exfalso. apply n'. apply (f_equal (flips 0 ref)) in e. rewrite HH in e. exact e.
  - exfalso. apply n. rewrite e', HH. reflexivity.
Qed.

(** ---- integers and occupation lists ---- *)
Definition binary (ref : list nat) : Prop := Forall (fun o => o < 2) ref.
Fixpoint idx (ref : list nat) : N := match ref with [] => 0 | o :: r => 2 * idx r + N.of_nat o end%N.
Lemma basis_idx_eq ref : ref <> [] -> binary ref -> ref_to_basis_idx ref = Ok (idx ref).
Proof.
  intros HN HB. unfold ref_to_basis_idx. destruct ref as [|o r] eqn:E; [congruence|]. rewrite <- E in *. clear HN E.
  induction ref as [|a s IH]; [reflexivity|]. cbn [rev idx]. rewrite foreach_app, IH by (inversion HB; assumption). cbn [bind foreach]. assert (HA : a < 2) by (inversion HB; assumption).
  replace (Nat.ltb 1 a) with false by (symmetry; apply Nat.ltb_ge; lia). reflexivity.
Qed.
Lemma bad_idx ref : ~ binary ref -> ref_to_basis_idx ref = Throw (PyError "ValueError").
Proof.
  intros HB. unfold ref_to_basis_idx. destruct ref as [|o r] eqn:E; [reflexivity|]. rewrite <- E in *. clear E.
  induction ref as [|a s IH]; [exfalso; apply HB; constructor|]. cbn [rev]. rewrite foreach_app.
  destruct (Forall_dec (fun o => o < 2) (fun x => lt_dec x 2) s) as [HS|HS].
  - assert (HA : ~ a < 2) by (intros HA; apply HB; constructor; assumption). destruct (foreach (rev s) _ _) as [v|e] eqn:EF.
    + cbn [bind foreach]. replace (Nat.ltb 1 a) with true by (symmetry; apply Nat.ltb_lt; lia). reflexivity.
    + exfalso. destruct s as [|b s']; [discriminate|]. pose proof (basis_idx_eq (b :: s') ltac:(discriminate) HS) as H. unfold ref_to_basis_idx in H. rewrite EF in H. discriminate.
  - rewrite (IH HS). reflexivity.
Qed.
Lemma occ_idx ref : binary ref -> forall q, occ (idx ref) q = Nat.eqb (nth q ref 0) 1.
Proof.
  intros HB. induction ref as [|a s IH]; intros q; [destruct q; apply N.bits_0|]. cbn [idx]. pose proof (Forall_inv HB) as HA. cbn beta in HA. specialize (IH (Forall_inv_tail HB)). unfold occ in *.
  destruct q as [|q].
  - cbn [nth]. change (N.of_nat 0) with 0%N. destruct a as [|[|a]]; [|..|lia].
    + cbn [N.of_nat]. rewrite N.add_0_r. rewrite N.testbit_even_0. reflexivity.
    + change (N.of_nat 1) with 1%N. rewrite N.testbit_odd_0. reflexivity.
  - cbn [nth]. rewrite <- IH, Nat2N.inj_succ. destruct a as [|[|a]]; [|..|lia].
    + cbn [N.of_nat]. rewrite N.add_0_r. apply N.testbit_even_succ, N.le_0_l.
    + change (N.of_nat 1) with 1%N. apply N.testbit_odd_succ, N.le_0_l.
Qed.
Lemma idx_lt ref : binary ref -> (idx ref < 2 ^ N.of_nat (length ref))%N.
Proof.
  induction ref as [|a s IH]; intros HB; [reflexivity|]. cbn [idx length]. specialize (IH (Forall_inv_tail HB)). pose proof (Forall_inv HB) as HA. cbn beta in HA. rewrite Nat2N.inj_succ, N.pow_succ_r'. lia.
Qed.
Definition occ_list (x : N) (n : nat) : list nat := map (fun i => if occ x i then 1 else 0) (seq 0 n).
Lemma to_ref_eq x n : (x < 2 ^ 64)%N -> n <= 64 -> integer_to_ref x n = Ok (occ_list x n).
Proof.
  intros Hx Hn. unfold integer_to_ref, occ_list. change (map (fun i => if occ x i then 1 else 0) (seq 0 n)) with ([] ++ map (fun i => if occ x i then 1 else 0) (seq 0 n)).
  assert (G : forall k s acc, s + k <= 64 -> foreach (seq s k) (fun i ref => do b <- qb_get_bit x i; Ok (ref ++ [if b then 1 else 0])%list) acc = Ok (acc ++ map (fun i => if occ x i then 1 else 0) (seq s k))); [|apply G; lia].
  induction k as [|k IH]; intros s acc Hk; cbn [seq foreach map]; [rewrite app_nil_r; reflexivity|]. destruct (PropPool.C36_basis_bits x s Hx ltac:(lia)) as (-> & _). cbn [bind]. rewrite IH by lia. rewrite <- app_assoc, occ_bit. reflexivity.
Qed.
Lemma occ_list_binary x n : binary (occ_list x n).
Proof. unfold binary, occ_list. rewrite Forall_map, Forall_forall. intros i _. destruct (occ x i); lia. Qed.
Lemma occ_list_length x n : length (occ_list x n) = n.
Proof. unfold occ_list. rewrite map_length, seq_length. reflexivity. Qed.
Lemma nth_occ_list x n q : q < n -> nth q (occ_list x n) 0 = if occ x q then 1 else 0.
Proof.
  intros H. unfold occ_list. rewrite nth_indep with (d' := if occ x 0 then 1 else 0) by (rewrite map_length, seq_length; exact H).
  rewrite (map_nth (fun i => if occ x i then 1 else 0)), seq_nth by exact H. reflexivity.
Qed.
Lemma occ_list_idx ref : binary ref -> occ_list (idx ref) (length ref) = ref.
Proof.
  intros HB. apply (nth_ext _ _ 0 0); [apply occ_list_length|]. rewrite occ_list_length. intros q Hq. rewrite nth_occ_list, occ_idx by assumption.
  unfold binary in HB. rewrite Forall_forall in HB. specialize (HB _ (nth_In ref 0 Hq)). destruct (nth q ref 0) as [|[|k]]; [reflexivity..|lia].
Qed.
Lemma idx_occ_list x n : (x < 2 ^ N.of_nat n)%N -> idx (occ_list x n) = x.
Proof.
  intros H. apply N.bits_inj. intros k. rewrite <- (N2Nat.id k). change (occ (idx (occ_list x n)) (N.to_nat k) = occ x (N.to_nat k)). generalize (N.to_nat k) as q. intros q. rewrite occ_idx by apply occ_list_binary.
  destruct (Nat.lt_ge_cases q n) as [L|L]; [rewrite nth_occ_list by exact L; destruct (occ x q); reflexivity|]. rewrite nth_overflow by (rewrite occ_list_length; exact L). symmetry. change (Nat.eqb 0 1) with false.
  unfold occ. destruct (N.eq_dec x 0) as [->|n0]; [apply N.bits_0|]. apply N.bits_above_log2. apply N.log2_lt_pow2; [lia|]. eapply N.lt_le_trans; [exact H|]. apply N.pow_le_mono_r; lia.
Qed.

(** ---- spin-equivalent determinants ---- *)
Definition pair_at (d : list nat) (i : nat) : nat * nat := (nth (2 * i) d 0, nth (2 * i + 1) d 0).
(** d is ref with the electrons of some singly occupied orbitals moved to the other spin *)
Definition spin_moved (ref d : list nat) : Prop :=
  length d = length ref /\
  (forall i, i < Nat.div (length ref) 2 -> pair_at d i = pair_at ref i \/
     (fst (pair_at ref i) + snd (pair_at ref i) = 1 /\ pair_at d i = (snd (pair_at ref i), fst (pair_at ref i)))) /\
  (forall p, 2 * Nat.div (length ref) 2 <= p -> nth p d 0 = nth p ref 0).
(** twice the spin projection *)
Definition spin2 (d : list nat) : Z :=
  fold_right Z.add 0%Z (map (fun i => Z.of_nat (fst (pair_at d i)) - Z.of_nat (snd (pair_at d i)))%Z (seq 0 (Nat.div (length d) 2))).
Lemma twice_spin_eq d : twice_spin d = spin2 d.
Proof.
  unfold twice_spin, spin2, pair_at. cbn [fst snd]. generalize (seq 0 (Nat.div (length d) 2)) as l. assert (G : forall l s, fold_left (fun s i => (s + Z.of_nat (nth (2 * i)%nat d 0%nat) - Z.of_nat (nth (2 * i + 1)%nat d 0%nat))%Z) l s = (s + fold_right Z.add 0 (map (fun i => Z.of_nat (nth (2 * i) d 0%nat) - Z.of_nat (nth (2 * i + 1) d 0%nat)) l))%Z).
  { induction l as [|i l IH]; intros s; cbn [fold_left map fold_right]; [lia|]. rewrite IH. lia. }
  intros l. rewrite G. lia.
Qed.
Lemma flip_length d o : length (flip_spin d o) = length d.
Proof. unfold flip_spin. rewrite !list_set_length. reflexivity. Qed.
Lemma nth_flip d o p : 2 * o + 1 < length d -> nth p (flip_spin d o) 0 = if Nat.eqb p (2 * o) then nth (2 * o + 1) d 0 else if Nat.eqb p (2 * o + 1) then nth (2 * o) d 0 else nth p d 0.
Proof.
  intros H. unfold flip_spin.
  assert (G : forall (v : list nat) i x k, i < length v -> nth k (list_set v i x) 0 = if Nat.eqb k i then x else nth k v 0).
  { clear. induction v as [|a v IH]; intros i x k Hi; [cbn in Hi; lia|]. destruct i as [|i], k as [|k]; try reflexivity. cbn [list_set nth]. cbn in Hi. rewrite IH by lia. reflexivity. }
  rewrite G by (rewrite list_set_length; lia). destruct (Nat.eqb_spec p (2 * o + 1)) as [->|n].
  - destruct (Nat.eqb_spec (2 * o + 1) (2 * o)); [lia|reflexivity].
  - rewrite G by lia. reflexivity.
Qed.
Lemma flip_invol d o : 2 * o + 1 < length d -> flip_spin (flip_spin d o) o = d.
Proof.
  intros H. apply (nth_ext _ _ 0 0); [rewrite !flip_length; reflexivity|]. intros p _. rewrite !nth_flip by (rewrite ?flip_length; exact H).
  destruct (Nat.eqb_spec p (2 * o)) as [->|n]; [|destruct (Nat.eqb_spec p (2 * o + 1)) as [->|n']; [|reflexivity]].
  - destruct (Nat.eqb_spec (2 * o + 1) (2 * o)); [lia|]. rewrite Nat.eqb_refl. reflexivity.
  - rewrite Nat.eqb_refl. reflexivity.
Qed.
Lemma pair_flip d o i : 2 * o + 1 < length d -> pair_at (flip_spin d o) i = if Nat.eqb i o then (snd (pair_at d o), fst (pair_at d o)) else pair_at d i.
Proof.
  intros H. unfold pair_at. cbn [fst snd]. rewrite !nth_flip by exact H. destruct (Nat.eqb_spec i o) as [->|n].
  - rewrite Nat.eqb_refl. destruct (Nat.eqb_spec (2 * o + 1) (2 * o)); [lia|]. rewrite Nat.eqb_refl. reflexivity.
  - repeat match goal with |- context [Nat.eqb ?a ?b] => destruct (Nat.eqb_spec a b); [lia|] end. reflexivity.
Qed.
Definition singles (ref : list nat) : list nat := filter (fun i => Nat.eqb (nth (2 * i) ref 0 + nth (2 * i + 1) ref 0) 1) (seq 0 (Nat.div (length ref) 2)).
Lemma in_singles ref o : In o (singles ref) <-> o < Nat.div (length ref) 2 /\ fst (pair_at ref o) + snd (pair_at ref o) = 1.
Proof. unfold singles. rewrite filter_In, in_seq, Nat.eqb_eq. unfold pair_at. cbn [fst snd]. split; intros [A B]; split; try lia; exact B. Qed.
Lemma half_lt l o : o < Nat.div l 2 -> 2 * o + 1 < l.
Proof. intros H. pose proof (Nat.mul_div_le l 2). lia. Qed.
Lemma moved_refl ref : spin_moved ref ref.
Proof. split; [reflexivity|]. split; [left; reflexivity|reflexivity]. Qed.
Lemma moved_flip ref d o : spin_moved ref d -> In o (singles ref) -> spin_moved ref (flip_spin d o).
Proof.
  intros (HL & HP & HT) Ho. apply in_singles in Ho. destruct Ho as [Ho HS]. pose proof (half_lt _ _ Ho) as HO. assert (HO' : 2 * o + 1 < length d) by (rewrite HL; exact HO).
  split; [rewrite flip_length; exact HL|]. split.
  - intros i Hi. rewrite pair_flip by exact HO'. destruct (Nat.eqb_spec i o) as [->|n]; [|apply HP, Hi]. destruct (HP o Ho) as [E|[_ E]]; rewrite E; [right; auto|left]. cbn [fst snd]. destruct (pair_at ref o); reflexivity.
  - intros p Hp. rewrite nth_flip by exact HO'. destruct (Nat.eqb_spec p (2 * o)); [lia|]. destruct (Nat.eqb_spec p (2 * o + 1)); [lia|]. apply HT, Hp.
Qed.
(** all of them, in a list of length 2^(orbitals) *)
Fixpoint enum (ref : list nat) : list (list nat) :=
  match ref with
  | a :: b :: r => map (fun d => a :: b :: d) (enum r) ++ map (fun d => b :: a :: d) (enum r)
  | r => [r]
  end.
Lemma pair_ind (P : list nat -> Prop) : P [] -> (forall a, P [a]) -> (forall a b r, P r -> P (a :: b :: r)) -> forall l, P l.
Proof. intros H0 H1 H2. assert (G : forall l, P l /\ forall a, P (a :: l)). { induction l as [|x l [IH1 IH2]]; [auto|]. split; [apply IH2|]. intros a. apply H2, IH1. } intros l. apply G. Qed.
Lemma half_SS n : Nat.div (S (S n)) 2 = S (Nat.div n 2).
Proof. replace (S (S n)) with (n + 1 * 2) by lia. rewrite Nat.div_add by lia. lia. Qed.
Lemma enum_length ref : length (enum ref) = 2 ^ Nat.div (length ref) 2.
Proof.
  induction ref as [|a|a b r IH] using pair_ind; [reflexivity..|]. cbn [enum length]. rewrite app_length, !map_length, IH, half_SS. cbn [Nat.pow]. lia.
Qed.
Lemma moved_enum ref : forall d, spin_moved ref d -> In d (enum ref).
Proof.
  induction ref as [|a|a b r IH] using pair_ind; intros d (HL & HP & HT).
  - destruct d; [left; reflexivity|discriminate].
  - destruct d as [|x [|]]; try discriminate. specialize (HT 0 ltac:(cbn; lia)). cbn in HT. subst x. left; reflexivity.
  - destruct d as [|x [|y d]]; try discriminate. cbn [length] in *. rewrite half_SS in HP, HT. cbn [enum]. apply in_or_app.
    assert (HD : In d (enum r)).
    { apply IH. split; [lia|]. split.
      - intros i Hi. specialize (HP (S i) ltac:(lia)). unfold pair_at in *. cbn [fst snd] in *. replace (2 * S i) with (S (S (2 * i))) in HP by lia. exact HP.
      - intros p Hp. specialize (HT (S (S p)) ltac:(lia)). exact HT. }
    destruct (HP 0 ltac:(lia)) as [E|[_ E]]; cbn in E; injection E as -> ->; [left|right]; apply in_map_iff; exists d; auto.
Qed.
Lemma moved_closed ref l : In ref l -> (forall d o, In d l -> In o (singles ref) -> In (flip_spin d o) l) -> forall d, spin_moved ref d -> In d l.
Proof.
  intros HR HC. assert (G : forall k d, spin_moved ref d -> (forall i, k <= i -> i < Nat.div (length ref) 2 -> pair_at d i = pair_at ref i) -> In d l).
  { induction k as [|k IH]; intros d HM HA.
    - replace d with ref; [exact HR|]. destruct HM as (HL & _ & HT). apply (nth_ext _ _ 0 0); [auto|]. intros p Hp.
      destruct (Nat.lt_ge_cases p (2 * Nat.div (length ref) 2)) as [L|L]; [|symmetry; apply HT, L].
      assert (Hi : Nat.div p 2 < Nat.div (length ref) 2) by (apply Nat.div_lt_upper_bound; lia). specialize (HA (Nat.div p 2) ltac:(lia) Hi). unfold pair_at in HA. injection HA as E1 E2.
      pose proof (Nat.div_mod p 2 ltac:(lia)) as ED. pose proof (Nat.mod_upper_bound p 2 ltac:(lia)) as EM. destruct (Nat.eq_dec (p mod 2) 0) as [e|e].
      + replace p with (2 * (p / 2)) by lia. symmetry; exact E1.
      + replace p with (2 * (p / 2) + 1) by lia. symmetry; exact E2.
    - destruct (Nat.lt_ge_cases k (Nat.div (length ref) 2)) as [L|L]; [|apply IH; [exact HM|intros; lia]].
      destruct (proj1 (proj2 HM) k L) as [E|[HS E]].
      + apply IH; [exact HM|]. intros i Hi Hi'. destruct (Nat.eq_dec i k) as [->|n]; [exact E|apply HA; lia].
      + assert (HK : In k (singles ref)) by (apply in_singles; auto). pose proof (half_lt _ _ L) as HO. assert (HO' : 2 * k + 1 < length d) by (rewrite (proj1 HM); exact HO).
        rewrite <- (flip_invol d k HO'). apply HC; [|exact HK]. apply IH; [apply moved_flip; assumption|]. intros i Hi Hi'. rewrite pair_flip by exact HO'.
        destruct (Nat.eqb_spec i k) as [->|n]; [rewrite E; cbn [fst snd]; destruct (pair_at ref k); reflexivity|apply HA; lia]. }
  intros d HM. apply (G (Nat.div (length ref) 2) d HM). intros; lia.
Qed.

(** the loop *)
Lemma add_flips ref d : spin_moved ref d -> forall orbs l, (forall o, In o orbs -> In o (singles ref)) -> Forall (spin_moved ref) l -> NoDup l ->
  exists m, fold_left (fun l orb => let temp := flip_spin d orb in if existsb (det_eqb temp) l then l else (l ++ [temp])%list) orbs l = l ++ m /\
    Forall (spin_moved ref) (l ++ m) /\ NoDup (l ++ m) /\ forall o, In o orbs -> In (flip_spin d o) (l ++ m).
Proof.
  intros HM. induction orbs as [|o orbs IH]; intros l HO HF HN; cbn [fold_left]; [exists []; rewrite app_nil_r; repeat split; auto; intros ? []|].
  cbv zeta. set (t := flip_spin d o). assert (Ht : spin_moved ref t) by (apply moved_flip; [exact HM|apply HO; left; reflexivity]).
  assert (HE : existsb (det_eqb t) l = true <-> In t l).
  { rewrite existsb_exists. unfold det_eqb. split; [intros (x & Hx & E); destruct (list_eq_dec Nat.eq_dec t x); [subst; exact Hx|discriminate]|]. intros H. exists t. split; [exact H|]. destruct (list_eq_dec Nat.eq_dec t t); congruence. }
  destruct (existsb (det_eqb t) l) eqn:EB.
  - destruct (IH l (fun x Hx => HO x (or_intror Hx)) HF HN) as (m & E & A & B & D). exists m. split; [exact E|]. repeat split; auto. intros x [<-|Hx]; [apply in_or_app; left; apply HE; reflexivity|apply D, Hx].
  - assert (HI : ~ In t l) by (intros H; apply HE in H; discriminate).
    destruct (IH (l ++ [t]) (fun x Hx => HO x (or_intror Hx))) as (m & E & A & B & D).
    + apply Forall_app; auto.
    + clear -HN HI. induction l as [|a l IHl]; [repeat constructor; intros []|]. cbn. inversion HN; subst. constructor; [|apply IHl; auto; intros H; apply HI; right; exact H]. intros H. apply in_app_or in H. destruct H as [H|[<-|[]]]; [contradiction|]. apply HI; left; reflexivity.
    + exists (t :: m). rewrite <- app_assoc in *. cbn [app] in *. split; [exact E|]. repeat split; auto. intros x [<-|Hx]; [apply in_or_app; right; left; reflexivity|apply D, Hx].
Qed.
Lemma eq_loop ref fuel : forall i l, Forall (spin_moved ref) l -> NoDup l -> In ref l -> i <= length l ->
  (forall j d o, j < i -> nth_error l j = Some d -> In o (singles ref) -> In (flip_spin d o) l) ->
  2 ^ Nat.div (length ref) 2 < fuel + i ->
  exists l', eq_dets_loop fuel i (singles ref) l = Ok l' /\ NoDup l' /\ forall d, In d l' <-> spin_moved ref d.
Proof.
  induction fuel as [|f IH]; intros i l HF HN HR HI HC HB.
  - exfalso. assert (length l <= 2 ^ Nat.div (length ref) 2); [|lia]. rewrite <- enum_length. apply NoDup_incl_length; [exact HN|]. intros d Hd. apply moved_enum. rewrite Forall_forall in HF. apply HF, Hd.
  - cbn [eq_dets_loop]. destruct (nth_error l i) as [d|] eqn:E.
    + assert (Hd : spin_moved ref d) by (rewrite Forall_forall in HF; apply HF, (nth_error_In _ _ E)). assert (HL : i < length l) by (apply nth_error_Some; congruence).
      destruct (add_flips ref d Hd (singles ref) l (fun o H => H) HF HN) as (m & Em & A & B & D). cbv zeta in *. rewrite Em.
      apply IH; [exact A|exact B|apply in_or_app; left; exact HR|rewrite app_length; lia| |lia].
      intros j d' o Hj E' Ho. rewrite nth_error_app1 in E' by lia. destruct (Nat.eq_dec j i) as [->|n].
      * rewrite E in E'. injection E' as <-. apply D, Ho.
      * apply in_or_app. left. apply (HC j); [lia|exact E'|exact Ho].
    + exists l. split; [reflexivity|]. split; [exact HN|]. intros d. split; [rewrite Forall_forall in HF; apply HF|].
      apply moved_closed; [exact HR|]. intros d' o Hd' Ho. apply In_nth_error in Hd'. destruct Hd' as [j Ej]. apply (HC j); [|exact Ej|exact Ho].
      apply nth_error_None in E. assert (j < length l) by (apply nth_error_Some; congruence). lia.
Qed.
Lemma eq_dets_correct ref fuel : 2 ^ Nat.div (length ref) 2 < fuel ->
  exists l, build_eq_dets fuel ref = Ok l /\ NoDup l /\ forall d, In d l <-> spin_moved ref d /\ Z.abs (spin2 d) = Z.abs (spin2 ref).
Proof.
  intros HF. unfold build_eq_dets. cbv zeta. destruct (eq_loop ref fuel 0 [ref]) as (l & E & HN & HD).
  - constructor; [apply moved_refl|constructor].
  - repeat constructor. intros [].
  - left; reflexivity.
  - cbn; lia.
  - intros; lia.
  - lia.
  - fold (singles ref). rewrite E. cbn [bind]. eexists. split; [reflexivity|]. split; [apply NoDup_filter, HN|]. intros d. rewrite filter_In, HD. unfold correct_spin. rewrite Z.eqb_eq, !twice_spin_eq. reflexivity.
Qed.
