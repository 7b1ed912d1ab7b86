(** Property theorems C43: point groups. *)
From Coq Require Import String List Arith NArith Bool Lia Permutation.
From Verif Require Import Result SQPoolModel PointModel PointSpec.
Import ListNotations.
Local Open Scope string_scope.

Definition Group (s : string) : Prop := In s ["c1"; "c2"; "ci"; "cs"; "d2"; "c2h"; "c2v"; "d2h"].
(** the list returned for the group contains each of its irreps exactly once; the argument
    is not case sensitive; everything else is rejected *)
Theorem C43_irreps : forall name,
  (Group (lower name) -> exists l, irreps_of_point_groups name = Ok l /\ Permutation l (map fst (characters (lower name)))) /\
  (~ Group (lower name) -> irreps_of_point_groups name = Throw (PyError "ValueError")).
Proof.
  intros name. unfold irreps_of_point_groups. generalize (lower name). intros s. split.
  - intros H. repeat destruct H as [<-|H]; [..|destruct H]; (eexists; split; [reflexivity|]); cbn; try apply Permutation_refl.
    apply perm_skip. apply perm_swap.
  - intros H. unfold point_group_to_irreps. cbn [dict_get].
    repeat match goal with |- context [s =? ?t] => destruct (String.eqb_spec s t) as [->|_]; [exfalso; apply H; unfold Group; cbn; tauto|] end. reflexivity.
Qed.
Definition find_char (g s : string) : option (list bool) := dict_get s (characters g).
Lemma dict_get_in {A} s (d : list (string * A)) v : dict_get s d = Some v -> In (s, v) d.
Proof. induction d as [|[k w] d IH]; [discriminate|]. cbn. destruct (String.eqb_spec s k) as [->|_]; [intros H; injection H as ->; left; reflexivity|auto]. Qed.
Definition product_check (g : string) (l : list string) (i j : nat) : bool :=
  match nth_error l (N.to_nat (N.lxor (N.of_nat i) (N.of_nat j))), nth_error l i, nth_error l j with
  | Some u, Some s, Some t =>
      match find_char g u, find_char g s, find_char g t with
      | Some cu, Some cs, Some ct => if list_eq_dec Bool.bool_dec cu (char_mul cs ct) then true else false
      | _, _, _ => false
      end
  | _, _, _ => false
  end.
Lemma products_checked : forallb (fun e => forallb (fun i => forallb (product_check (fst e) (snd e) i) (seq 0 (length (snd e)))) (seq 0 (length (snd e)))) point_group_to_irreps = true.
Proof. vm_compute. reflexivity. Qed.
(** position i of the list is the irrep i; the product of the irreps at positions i and j is
    the irrep at position (i xor j): characters multiply *)
Theorem C43_product : forall name l i j s t, irreps_of_point_groups name = Ok l -> nth_error l i = Some s -> nth_error l j = Some t ->
  exists u cs ct, nth_error l (N.to_nat (N.lxor (N.of_nat i) (N.of_nat j))) = Some u /\
    has_character (lower name) s cs /\ has_character (lower name) t ct /\ has_character (lower name) u (char_mul cs ct).
Proof.
  intros name l i j s t. unfold irreps_of_point_groups. generalize (lower name). intros g H Hi Hj.
  destruct (dict_get g point_group_to_irreps) as [l'|] eqn:E; [|discriminate]. injection H as ->.
  apply dict_get_in in E. pose proof products_checked as PC. rewrite forallb_forall in PC. specialize (PC _ E). cbn [fst snd] in PC.
  assert (Bi : i < length l) by (apply nth_error_Some; congruence). assert (Bj : j < length l) by (apply nth_error_Some; congruence).
  rewrite forallb_forall in PC. specialize (PC i (proj2 (in_seq _ _ _) (conj (Nat.le_0_l _) Bi))). rewrite forallb_forall in PC. specialize (PC j (proj2 (in_seq _ _ _) (conj (Nat.le_0_l _) Bj))).
  unfold product_check in PC. rewrite Hi, Hj in PC. destruct (nth_error l (N.to_nat _)) as [u|] eqn:EU; [|discriminate]. unfold find_char in PC.
  destruct (dict_get u (characters g)) as [cu|] eqn:Du; [|discriminate]. destruct (dict_get s (characters g)) as [cs|] eqn:Ds; [|discriminate]. destruct (dict_get t (characters g)) as [ct|] eqn:Dt; [|discriminate].
  destruct (list_eq_dec _ _ _) as [->|]; [|discriminate]. exists u, cs, ct. split; [reflexivity|]. unfold has_character. repeat split; apply dict_get_in; assumption.
Qed.
(** the irrep at position 0 is totally symmetric *)
Theorem C43_unit : forall name l, irreps_of_point_groups name = Ok l -> exists s c, nth_error l 0 = Some s /\ has_character (lower name) s c /\ Forall (fun b => b = true) c.
Proof.
  intros name l. unfold irreps_of_point_groups. generalize (lower name). intros g H. destruct (dict_get g point_group_to_irreps) as [l'|] eqn:E; [|discriminate]. injection H as ->.
  apply dict_get_in in E. repeat destruct E as [E|E]; [..|destruct E]; injection E as <- <-; do 2 eexists; (split; [reflexivity|]); unfold has_character; cbn; (split; [left; reflexivity|]); repeat constructor.
Qed.
(** ---- products of any number of orbital irreps (find_irrep) ---- *)
(** [irr] gives for every spatial orbital the position of its irrep in the list [l] *)
Definition position_ok (l : list string) (k : N) : Prop := N.to_nat k < length l.
Definition chars_of (g : string) (l : list string) (k : N) (c : list bool) : Prop := exists s, nth_error l (N.to_nat k) = Some s /\ has_character g s c.
(** product of the characters of a list of positions *)
Inductive chars_product (g : string) (l : list string) : list N -> list bool -> Prop :=
| cp_nil c : chars_of g l 0%N c -> Forall (fun b => b = true) c -> chars_product g l [] c
| cp_snoc ks k c d : chars_product g l ks c -> chars_of g l k d -> chars_product g l (ks ++ [k]) (char_mul c d).
Theorem C43_find_irrep : forall name l irr idx, irreps_of_point_groups name = Ok l -> Forall (position_ok l) irr -> Forall (fun p => p / 2 < length irr) idx ->
  exists x c, find_irrep irr idx = Ok x /\ chars_of (lower name) l x c /\ chars_product (lower name) l (map (fun p => nth (p / 2) irr 0%N) idx) c.
Proof.
  intros name l irr idx HN HP. induction idx as [|p idx IH] using rev_ind; intros HI.
  - destruct (C43_unit name l HN) as (s & c & E & HC & HF). exists 0%N, c. split; [reflexivity|].
    assert (chars_of (lower name) l 0%N c) by (exists s; split; assumption). split; [assumption|constructor; assumption].
  - apply Forall_app in HI. destruct HI as [HI1 HI2]. inversion HI2 as [|? ? HI3 _]; subst. destruct (IH HI1) as (x & c & E & (sx & Ex & Cx) & CP).
    assert (HK : position_ok l (nth (p / 2) irr 0%N)) by (apply (proj1 (Forall_forall _ _) HP), nth_In, HI3).
    destruct (nth_error l (N.to_nat (nth (p / 2) irr 0%N))) as [sy|] eqn:Ey; [|apply nth_error_None in Ey; unfold position_ok in HK; lia].
    destruct (C43_product name l _ _ sx sy HN Ex Ey) as (u & cs & ct & EU & H1 & H2 & H3). rewrite !N2Nat.id in EU.
    exists (N.lxor x (nth (p / 2) irr 0%N)), (char_mul cs ct). split; [|split].
    + unfold find_irrep in *. rewrite foreach_app, E. cbn [bind foreach]. unfold vget. rewrite (nth_error_nth' irr 0%N HI3). reflexivity.
    + exists u. split; assumption.
    + rewrite map_app. cbn [map].
      assert (c = cs).
      { clear - Cx H1 HN. unfold has_character in *. unfold irreps_of_point_groups in HN. destruct (dict_get (lower name) point_group_to_irreps) as [l'|] eqn:ED; [|discriminate].
        apply dict_get_in in ED. revert Cx H1. generalize (lower name), ED. clear. intros g ED H1 H2.
        assert (ND : NoDup (map fst (characters g))).
        { repeat destruct ED as [ED|ED]; [..|destruct ED]; injection ED as <- <-; cbn; repeat (constructor; [cbn; intros HH; repeat destruct HH as [HH|HH]; try discriminate HH; exact HH|]); constructor. }
        revert ND H1 H2. generalize (characters g). intros d. induction d as [|[k v] d IH]; intros ND H1 H2; [destruct H1|].
        cbn [map fst] in ND. apply NoDup_cons_iff in ND. destruct ND as [N1 N2]. destruct H1 as [H1|H1], H2 as [H2|H2].
        - congruence.
        - exfalso. apply N1. injection H1 as -> ->. apply (in_map fst) in H2. exact H2.
        - exfalso. apply N1. injection H2 as -> ->. apply (in_map fst) in H1. exact H1.
        - auto. }
      subst c. constructor; [exact CP|]. exists sy. split; assumption.
Qed.
(** ---- the printed product table ---- *)
Theorem C43_char_table : forall name l, irreps_of_point_groups name = Ok l ->
  exists T, char_table name l = Ok T /\ length T = length l /\
  forall i j s t, nth_error l i = Some s -> nth_error l j = Some t -> exists row u cs ct, nth_error T i = Some row /\ length row = length l /\ nth_error row j = Some u /\
    has_character (lower name) s cs /\ has_character (lower name) t ct /\ has_character (lower name) u (char_mul cs ct).
Proof.
  intros name l HN.
  assert (HR : forall i, i < length l -> exists row, table_row l i = Ok row /\ length row = length l /\
    forall j, j < length l -> nth_error row j = nth_error l (N.to_nat (N.lxor (N.of_nat i) (N.of_nat j)))).
  { intros i Hi. unfold table_row.
    assert (HX : forall j, j < length l -> exists u, nth_error l (N.to_nat (N.lxor (N.of_nat i) (N.of_nat j))) = Some u).
    { intros j Hj. destruct (C43_product name l i j _ _ HN (nth_error_nth' l "" Hi) (nth_error_nth' l "" Hj)) as (u & _ & _ & E & _). eauto. }
    assert (HG : forall m a, a + m <= length l -> exists row, (fix go (l0 : list nat) : res (list string) := match l0 with [] => Ok [] | idx2 :: r =>
       match nth_error l (N.to_nat (N.lxor (N.of_nat i) (N.of_nat idx2))) with None => Throw (PyError "IndexError") | Some s => do t <- go r; Ok (s :: t) end end) (seq a m) = Ok row /\
       length row = m /\ forall j, j < m -> nth_error row j = nth_error l (N.to_nat (N.lxor (N.of_nat i) (N.of_nat (a + j))))).
    { induction m as [|m IH]; intros a Ha; [exists []; split; [reflexivity|]; split; [reflexivity|lia]|].
      destruct (IH (S a)) as (row & E & L & A); [lia|]. destruct (HX a) as (u & EU); [lia|]. cbn [seq]. rewrite EU, E. cbn [bind]. exists (u :: row). split; [reflexivity|]. split; [cbn; congruence|].
      intros [|j] Hj; [cbn; rewrite Nat.add_0_r; congruence|]. cbn [nth_error]. rewrite A by lia. do 4 f_equal. lia. }
    destruct (HG (length l) 0) as (row & E & L & A); [lia|]. exists row. split; [exact E|]. split; [exact L|]. exact A. }
  assert (HG : forall m a, a + m <= length l -> exists T, (fix go (l0 : list nat) : res (list (list string)) := match l0 with [] => Ok [] | idx1 :: r =>
       do x <- table_row l idx1; do t <- go r; Ok (x :: t) end) (seq a m) = Ok T /\ length T = m /\ forall i, i < m -> exists row, nth_error T i = Some row /\ table_row l (a + i) = Ok row).
  { induction m as [|m IH]; intros a Ha; [exists []; split; [reflexivity|]; split; [reflexivity|lia]|].
    destruct (IH (S a)) as (T & E & L & A); [lia|]. destruct (HR a) as (row & ER & _); [lia|]. cbn [seq]. rewrite ER. cbn [bind]. rewrite E. cbn [bind]. exists (row :: T). split; [reflexivity|]. split; [cbn; congruence|].
    intros [|i] Hi; [exists row; rewrite Nat.add_0_r; split; [reflexivity|exact ER]|]. cbn [nth_error]. replace (a + S i) with (S a + i) by lia. apply A. lia. }
  destruct (HG (length l) 0) as (T & E & L & A); [lia|]. exists T. split; [|split; [exact L|]].
  - unfold char_table. assert (HE : existsb (String.eqb (lower name)) ["c1"; "c2"; "ci"; "cs"; "d2"; "c2h"; "c2v"; "d2h"] = true); [|rewrite HE; exact E].
    unfold irreps_of_point_groups in HN. destruct (dict_get (lower name) point_group_to_irreps) eqn:ED; [|discriminate]. apply dict_get_in in ED.
    revert ED. generalize (lower name). intros g ED. repeat destruct ED as [ED|ED]; [..|destruct ED]; injection ED as <- _; reflexivity.
  - intros i j s t Hi Hj. assert (Bi : i < length l) by (apply nth_error_Some; congruence). assert (Bj : j < length l) by (apply nth_error_Some; congruence).
    destruct (A i Bi) as (row & E1 & E2). cbn [plus] in E2. destruct (HR i Bi) as (row' & E3 & LR & AR). rewrite E2 in E3. injection E3 as <-.
    destruct (C43_product name l i j s t HN Hi Hj) as (u & cs & ct & EU & H1 & H2 & H3). exists row, u, cs, ct. rewrite (AR j Bj). repeat split; assumption.
Qed.
Example C43_nonvacuous : irreps_of_point_groups "D2h" = Ok ["Ag"; "B1g"; "B2g"; "B3g"; "Au"; "B1u"; "B2u"; "B3u"] /\
  find_irrep [0; 5; 6; 3]%N [2; 5; 7] = Ok 0%N.
Proof. split; reflexivity. Qed.

Print Assumptions C43_irreps. Print Assumptions C43_product. Print Assumptions C43_unit. Print Assumptions C43_find_irrep. Print Assumptions C43_char_table.
