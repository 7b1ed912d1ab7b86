(** Excitation operators on amplitudes, their exponentials, and the fermionic sign. *)
From Coq Require Import Reals String List Arith Bool Lia Lra Sorted FunctionalExtensionality.
From Verif Require Import CBase Result Bits Spec SQSpec ExpSpec ExpProofs CompactModel CompactAct.
Import ListNotations.
Local Open Scope nat_scope.

(** ---- exponential of a rotation generator ---- *)
Definition generator (A : nat -> bool) (c0 : nat) (F : nat -> nat) (sg : nat -> C) (psi : state) : state := fun I =>
  if A I then (RtoC (if bit I c0 then 1 else -1) * (sg I * psi (F I)))%C else C0.
Section Exp.
  Variables (A : nat -> bool) (c0 : nat) (F : nat -> nat) (sg : nat -> C).
  Hypothesis HA : forall I, A I = true -> A (F I) = true.
  Hypothesis HF : forall I, A I = true -> F (F I) = I.
  Hypothesis Hb : forall I, A I = true -> bit (F I) c0 = negb (bit I c0).
  Hypothesis Hs : forall I, A I = true -> (sg I * sg (F I))%C = C1.
  Let P (psi : state) : state := fun I => if A I then (mkC 0 (if bit I c0 then -1 else 1) * (sg I * psi (F I)))%C else psi I.
  Lemma P_ext a b : a == b -> P a == P b.
  Proof. intros H I. unfold P. now rewrite !H. Qed.
  Lemma P_invol a : P (P a) == a.
  Proof.
    intros I. unfold P. destruct (A I) eqn:E; [|reflexivity]. rewrite (HA I E), (HF I E), (Hb I E).
    transitivity (mkC 0 (if bit I c0 then -1 else 1) * mkC 0 (if negb (bit I c0) then -1 else 1) * (sg I * sg (F I)) * a I)%C; [ring|]. rewrite (Hs I E). destruct (bit I c0); apply C_ext; cbn; ring.
  Qed.
  Lemma iter_active y psi k : forall I, A I = true -> (Cpow (mkC 0 y) k * Nat.iter k P psi I = Cpow (RtoC y) k * Nat.iter k (generator A c0 F sg) psi I)%C.
  Proof.
    induction k as [|k IH]; intros I E; [reflexivity|]. cbn [Cpow Nat.iter nat_rect]. change (nat_rect (fun _ => state) psi (fun _ => P) k) with (Nat.iter k P psi). change (nat_rect (fun _ => state) psi (fun _ => generator A c0 F sg) k) with (Nat.iter k (generator A c0 F sg) psi).
    unfold P at 1, generator at 1. rewrite E. specialize (IH (F I) (HA I E)).
    transitivity (mkC 0 y * mkC 0 (if bit I c0 then -1 else 1) * sg I * (Cpow (mkC 0 y) k * Nat.iter k P psi (F I)))%C; [ring|]. rewrite IH.
    transitivity (RtoC y * RtoC (if bit I c0 then 1 else -1) * sg I * (Cpow (RtoC y) k * Nat.iter k (generator A c0 F sg) psi (F I)))%C; [|ring].
    f_equal. f_equal. destruct (bit I c0); apply C_ext; cbn; ring.
  Qed.
  Lemma rotate_is_exp y psi : is_exp (RtoC y) (generator A c0 F sg) psi (rotate A y c0 F sg psi).
  Proof.
    intros I. destruct (A I) eqn:E.
    - destruct (euler_is_exp P psi y P_ext P_invol I) as (H1 & H2).
      assert (EP : forall n, exp_partial (RtoC y) (generator A c0 F sg) psi I n = exp_partial (mkC 0 y) P psi I n).
      { intros n. unfold exp_partial. apply Csum_ext. intros k _. pose proof (iter_active y psi k I E) as K. set (u := RtoC (/ INR (fact k))). set (a := Cpow (RtoC y) k) in *. set (b := Cpow (mkC 0 y) k) in *.
        transitivity (u * (a * Nat.iter k (generator A c0 F sg) psi I))%C; [ring|]. rewrite <- K. ring. }
      assert (EV : euler y P psi I = rotate A y c0 F sg psi I).
      { unfold euler, rotate, sadd, sscale, P. rewrite E. destruct (bit I c0); set (v := (sg I * psi (F I))%C); apply C_ext; cbn; ring. }
      rewrite <- EV. split; [eapply Un_cv_ext; [|exact H1] | eapply Un_cv_ext; [|exact H2]]; intros n; cbn beta; now rewrite EP.
    - assert (Z : forall k, Nat.iter (S k) (generator A c0 F sg) psi I = C0) by (intros k; cbn [Nat.iter nat_rect]; unfold generator at 1; now rewrite E).
      assert (EP : forall n, exp_partial (RtoC y) (generator A c0 F sg) psi I n = psi I).
      { induction n as [|n IH]; [unfold exp_partial; cbn [seq]; rewrite Csum_cons, Csum_nil; cbn [Cpow fact INR Nat.iter nat_rect]; apply C_ext; cbn; field|]. rewrite partial_S, IH, Z. ring. }
      unfold rotate. rewrite E. split; apply (Un_cv_ext (fun _ => _)) with (1 := fun n => f_equal _ (eq_sym (EP n))); apply cv_const.
  Qed.
End Exp.

(** ---- words of ladder operators ---- *)
Fixpoint cs (l : list nat) (I : nat) : bool := match l with [] => false | p :: r => xorb (odd_below I p) (cs r (flip I p)) end.
Lemma create_flip p phi I : create p phi I = if bit I p then (sgn (odd_below I p) * phi (flip I p))%C else C0.
Proof. unfold create. rewrite flip_upd. destruct (bit I p); reflexivity. Qed.
Lemma ann_flip p phi I : annihilate p phi I = if bit I p then C0 else (sgn (odd_below I p) * phi (flip I p))%C.
Proof. unfold annihilate. rewrite flip_upd. destruct (bit I p); reflexivity. Qed.
Lemma sgn_x a b : (sgn a * sgn b)%C = sgn (xorb a b).
Proof. destruct a, b; cbn [sgn xorb]; ring. Qed.
Lemma flip_other I p k : p <> k -> bit (flip I p) k = bit I k.
Proof. intros N. rewrite bit_flip. destruct (Nat.eqb_spec k p); [congruence|reflexivity]. Qed.
Lemma forallb_flip (v : bool -> bool) I p l : ~ In p l -> forallb (fun k => v (bit (flip I p) k)) l = forallb (fun k => v (bit I k)) l.
Proof. induction l as [|x r IH]; intros N; [reflexivity|]. cbn [forallb]. rewrite IH by (intros K; apply N; now right). rewrite flip_other; [reflexivity|]. intros ->. apply N. now left. Qed.
Lemma creates_eval l : NoDup l -> forall phi I, fold_right create phi l I = if forallb (fun k => bit I k) l then (sgn (cs l I) * phi (flips l I))%C else C0.
Proof.
  induction 1 as [|p r Np _ IH]; intros phi I; [cbn; ring|]. cbn [fold_right forallb cs]. rewrite create_flip, IH, (forallb_flip (fun b => b) I p r Np). destruct (bit I p); [|reflexivity]. cbn [andb]. destruct (forallb _ r); [|ring].
  rewrite <- sgn_x. cbn [flips fold_left]. unfold flips. ring.
Qed.
Lemma anns_eval l : NoDup l -> forall phi I, fold_right annihilate phi l I = if forallb (fun k => negb (bit I k)) l then (sgn (cs l I) * phi (flips l I))%C else C0.
Proof.
  induction 1 as [|p r Np _ IH]; intros phi I; [cbn; ring|]. cbn [fold_right forallb cs]. rewrite ann_flip, IH, (forallb_flip negb I p r Np). destruct (bit I p); [reflexivity|]. cbn [andb negb]. destruct (forallb _ r); [|ring].
  rewrite <- sgn_x. cbn [flips fold_left]. unfold flips. ring.
Qed.
Lemma raises_eval l : NoDup l -> forall phi I, fold_right raise phi l I = if forallb (fun k => bit I k) l then phi (flips l I) else C0.
Proof.
  induction 1 as [|p r Np _ IH]; intros phi I; [reflexivity|]. cbn [fold_right forallb]. unfold raise at 1. destruct (bit I p) eqn:E; [|reflexivity]. cbn [andb]. replace (upd I p false) with (flip I p) by (rewrite flip_upd, E; reflexivity).
  rewrite IH, (forallb_flip (fun b => b) I p r Np). reflexivity.
Qed.
Lemma lowers_eval l : NoDup l -> forall phi I, fold_right lower phi l I = if forallb (fun k => negb (bit I k)) l then phi (flips l I) else C0.
Proof.
  induction 1 as [|p r Np _ IH]; intros phi I; [reflexivity|]. cbn [fold_right forallb]. unfold lower at 1. destruct (bit I p) eqn:E; [reflexivity|]. cbn [andb negb]. replace (upd I p true) with (flip I p) by (rewrite flip_upd, E; reflexivity).
  rewrite IH, (forallb_flip negb I p r Np). reflexivity.
Qed.
Lemma flips_app a b I : flips (a ++ b) I = flips b (flips a I).
Proof. apply fold_left_app. Qed.
Lemma ladder_eval cre ann : NoDup cre -> NoDup ann -> forall psi I, ladder_act cre ann psi I =
  if forallb (fun k => bit I k) cre && forallb (fun k => negb (bit (flips cre I) k)) ann then (sgn (xorb (cs cre I) (cs ann (flips cre I))) * psi (flips ann (flips cre I)))%C else C0.
Proof.
  intros N1 N2 psi I. unfold ladder_act. rewrite creates_eval by exact N1. destruct (forallb _ cre); [|reflexivity]. rewrite anns_eval by exact N2. cbn [andb]. destruct (forallb _ ann); [|ring]. rewrite <- sgn_x. ring.
Qed.
Lemma qladder_eval cre ann : NoDup cre -> NoDup ann -> forall psi I, qladder_act cre ann psi I =
  if forallb (fun k => bit I k) cre && forallb (fun k => negb (bit (flips cre I) k)) ann then psi (flips ann (flips cre I)) else C0.
Proof.
  intros N1 N2 psi I. unfold qladder_act. rewrite raises_eval by exact N1. destruct (forallb _ cre); [|reflexivity]. rewrite lowers_eval by exact N2. reflexivity.
Qed.

(** ---- sums modulo two ---- *)
Definition xs {X} (f : X -> bool) (l : list X) : bool := fold_right xorb false (map f l).
Lemma xs_cons {X} (f : X -> bool) x l : xs f (x :: l) = xorb (f x) (xs f l).
Proof. reflexivity. Qed.
Lemma xs_app {X} (f : X -> bool) a b : xs f (a ++ b) = xorb (xs f a) (xs f b).
Proof. induction a as [|x r IH]; [now rewrite xorb_false_l|]. cbn [app]. rewrite !xs_cons, IH. symmetry. apply xorb_assoc. Qed.
Lemma xs_ext {X} (f g : X -> bool) l : (forall x, In x l -> f x = g x) -> xs f l = xs g l.
Proof. intros H. unfold xs. f_equal. now apply map_ext_in. Qed.
Lemma xs_false {X} (l : list X) : xs (fun _ => false) l = false.
Proof. induction l as [|x r IH]; [reflexivity|]. now rewrite xs_cons, IH. Qed.
Lemma xs_xor {X} (f g : X -> bool) l : xs (fun x => xorb (f x) (g x)) l = xorb (xs f l) (xs g l).
Proof. induction l as [|x r IH]; [reflexivity|]. rewrite !xs_cons, IH. destruct (f x), (g x), (xs f r), (xs g r); reflexivity. Qed.
Lemma xs_and {X} b (f : X -> bool) l : xs (fun x => b && f x) l = b && xs f l.
Proof. destruct b; [reflexivity | apply xs_false]. Qed.
Lemma xs_swap {X Y} (f : X -> Y -> bool) l m : xs (fun x => xs (f x) m) l = xs (fun y => xs (fun x => f x y) l) m.
Proof.
  induction l as [|x r IH]; [symmetry; apply xs_false|]. rewrite xs_cons, IH, <- xs_xor. apply xs_ext. intros y _. reflexivity.
Qed.
Lemma xs_filter {X} (p f : X -> bool) l : xs f (filter p l) = xs (fun x => p x && f x) l.
Proof. induction l as [|x r IH]; [reflexivity|]. cbn [filter]. rewrite (xs_cons (fun x => p x && f x)), <- IH. destruct (p x); cbn [andb]; [rewrite xs_cons; reflexivity | now rewrite xorb_false_l]. Qed.
Lemma xs_rev {X} (f : X -> bool) l : xs f (rev l) = xs f l.
Proof. induction l as [|x r IH]; [reflexivity|]. cbn [rev]. rewrite xs_app, IH, !xs_cons. change (xs f []) with false. destruct (f x), (xs f r); reflexivity. Qed.
Lemma odd_below_xs I m : forall p, p <= m -> odd_below I p = xs (fun j => Nat.ltb j p && bit I j) (seq 0 m).
Proof.
  intros p L. replace m with (p + (m - p)) by lia. rewrite seq_app, xs_app. replace (xs _ (seq (0 + p) (m - p))) with false.
  2: { symmetry. rewrite (xs_ext _ (fun _ => false)); [apply xs_false|]. intros j Ij. apply in_seq in Ij. destruct (Nat.ltb_spec j p); [lia|reflexivity]. }
  rewrite xorb_false_r. rewrite (xs_ext _ (bit I)). 2: { intros j Ij. apply in_seq in Ij. destruct (Nat.ltb_spec j p); [reflexivity|lia]. }
  clear. induction p as [|p IH]; [reflexivity|]. rewrite seq_S, xs_app. cbn [odd_below]. rewrite IH. unfold xs at 3. cbn [map fold_right Nat.add]. rewrite xorb_false_r. apply xorb_comm.
Qed.
Lemma below_flips l : NoDup l -> forall I p, odd_below (flips l I) p = xorb (odd_below I p) (xs (fun k => Nat.ltb k p) l).
Proof.
  intros N I p. rewrite !(odd_below_xs _ p p) by lia.
  rewrite (xs_ext _ (fun j => xorb (Nat.ltb j p && bit I j) (Nat.ltb j p && mem j l))). 2: { intros j _. rewrite bit_flips by exact N. destruct (Nat.ltb j p), (mem j l), (bit I j); reflexivity. }
  rewrite xs_xor. f_equal. induction N as [|x r Nx _ IH]; [rewrite (xs_ext _ (fun _ => false)) by (intros j _; cbn; apply andb_false_r); apply xs_false|].
  rewrite xs_cons, <- IH. apply mem_not in Nx.
  rewrite (xs_ext _ (fun j => xorb (Nat.eqb j x && Nat.ltb x p) (Nat.ltb j p && mem j r))). 2: { intros j _. rewrite mem_cons. destruct (Nat.eqb_spec j x) as [->|]; cbn [orb andb]; [rewrite Nx; destruct (Nat.ltb x p); reflexivity | now rewrite xorb_false_l]. }
  rewrite xs_xor. f_equal. clear. destruct (Nat.ltb_spec x p) as [L|L].
  - rewrite (xs_ext _ (fun j => Nat.eqb j x)) by (intros; apply andb_true_r). replace p with (x + S (p - x - 1)) by lia. rewrite seq_app, xs_app. cbn [seq Nat.add]. rewrite xs_cons, Nat.eqb_refl.
    rewrite (xs_ext _ (fun _ => false) (seq 0 x)), (xs_ext _ (fun _ => false) (seq (S x) _)); [rewrite !xs_false; reflexivity| |]; intros j Ij; apply in_seq in Ij; apply Nat.eqb_neq; lia.
  - rewrite (xs_ext _ (fun _ => false)) by (intros; apply andb_false_r). apply xs_false.
Qed.
Lemma below_flip I q p : odd_below (flip I q) p = xorb (odd_below I p) (Nat.ltb q p).
Proof. change (flip I q) with (flips [q] I). rewrite below_flips by (constructor; [intros []|constructor]). unfold xs. cbn [map fold_right]. now rewrite xorb_false_r. Qed.

(** ---- the sign of a descending word ---- *)
Definition desc (l : list nat) : Prop := StronglySorted (fun a b => b < a) l.
Lemma cs_desc l : desc l -> forall I, cs l I = xs (odd_below I) l.
Proof.
  induction 1 as [|p r _ IH F]; intros I; [reflexivity|]. cbn [cs]. rewrite xs_cons, IH. f_equal. apply xs_ext. intros q Iq. rewrite Forall_forall in F. specialize (F q Iq). rewrite below_flip. destruct (Nat.ltb_spec p q); [lia|apply xorb_false_r].
Qed.
Lemma desc_NoDup l : desc l -> NoDup l.
Proof. induction 1 as [|p r _ IH F]; constructor; [|exact IH]. intros I. rewrite Forall_forall in F. specialize (F p I). lia. Qed.
(** parity of n(n-1)/2 *)
Fixpoint tri (n : nat) : bool := match n with O => false | S k => xorb (Nat.odd k) (tri k) end.
Lemma xs_true {X} (l : list X) : xs (fun _ => true) l = Nat.odd (length l).
Proof. induction l as [|x r IH]; [reflexivity|]. rewrite xs_cons, IH. cbn [length]. rewrite Nat.odd_succ, <- Nat.negb_odd. reflexivity. Qed.
Lemma tri_desc l : desc l -> xs (fun p => xs (fun k => Nat.ltb k p) l) l = tri (length l).
Proof.
  induction 1 as [|p r _ IH F]; [reflexivity|]. rewrite Forall_forall in F. cbn [length tri]. rewrite xs_cons, <- IH. f_equal.
  - rewrite xs_cons, Nat.ltb_irrefl, xorb_false_l. rewrite (xs_ext _ (fun _ => true)); [apply xs_true|]. intros k Ik. apply Nat.ltb_lt, F, Ik.
  - apply xs_ext. intros q Iq. rewrite xs_cons. destruct (Nat.ltb_spec p q) as [L|L]; [specialize (F q Iq); lia|apply xorb_false_l].
Qed.
(** all orbitals of l emptied *)
Definition cleared (l : list nat) (I : nat) : nat := fold_left (fun J p => upd J p false) l I.
Lemma bit_cleared l : forall I k, bit (cleared l I) k = if mem k l then false else bit I k.
Proof.
  induction l as [|x r IH]; intros I k; [reflexivity|]. cbn [cleared fold_left]. fold (cleared r (upd I x false)). rewrite IH, bit_upd, mem_cons. destruct (mem k r); rewrite ?orb_true_r, ?orb_false_r; reflexivity.
Qed.
Lemma word_sign cre ann I : desc cre -> desc ann -> (forall k, In k cre -> bit I k = true) -> (forall k, In k ann -> bit I k = false) ->
  xorb (cs cre I) (cs ann (flips cre I)) = xorb (tri (length cre)) (xs (odd_below (cleared (cre ++ ann) I)) (cre ++ ann)).
Proof.
  intros D1 D2 H1 H2. rewrite !cs_desc by assumption. pose proof (desc_NoDup cre D1) as N1.
  assert (E : cleared (cre ++ ann) I = flips cre I).
  { apply bits_ext. intros k. rewrite bit_cleared, bit_flips, mem_app by exact N1. destruct (mem k cre) eqn:M1; cbn [orb]; [apply mem_In in M1; now rewrite (H1 k M1)|]. destruct (mem k ann) eqn:M2; [apply mem_In in M2; now rewrite (H2 k M2)|reflexivity]. }
  rewrite E, xs_app. rewrite <- xorb_assoc. f_equal. rewrite <- tri_desc by exact D1. rewrite (xs_ext (odd_below (flips cre I)) (fun p => xorb (odd_below I p) (xs (fun k => Nat.ltb k p) cre)) cre) by (intros; now apply below_flips).
  rewrite xs_xor. destruct (xs (odd_below I) cre), (xs _ cre); reflexivity.
Qed.
Lemma fold_xorb {X} (f : X -> bool) l : forall b, fold_left (fun b x => xorb b (f x)) l b = xorb b (xs f l).
Proof. induction l as [|x r IH]; intros b; cbn [fold_left]; [symmetry; apply xorb_false_r|]. rewrite IH, xs_cons. apply xorb_assoc. Qed.
(** the staircase collects exactly that sign *)
Lemma parity_indices idxs extra I : parity (filter (fun j => negb (mem j extra)) (cnot_indices idxs)) I = xs (odd_below (cleared (idxs ++ extra) I)) idxs.
Proof.
  set (m := list_max idxs + 1). assert (B : forall p, In p idxs -> p <= m) by (intros p Ip; pose proof (proj1 (list_max_le idxs (list_max idxs)) (Nat.le_refl _)) as L; rewrite Forall_forall in L; specialize (L p Ip); unfold m; lia).
  rewrite (xs_ext _ (fun p => xs (fun j => Nat.ltb j p && bit (cleared (idxs ++ extra) I) j) (seq 0 m))) by (intros p Ip; apply odd_below_xs, B, Ip). rewrite xs_swap.
  change (parity ?l I) with (xs (bit I) l). rewrite xs_filter. unfold cnot_indices. rewrite xs_rev, xs_filter. fold m. apply xs_ext. intros j _.
  rewrite (xs_ext _ (fun p => bit (cleared (idxs ++ extra) I) j && Nat.ltb j p)) by (intros; apply andb_comm). rewrite xs_and. rewrite bit_cleared, mem_app. unfold z_survives. rewrite fold_xorb, xorb_false_l.
  destruct (mem j idxs), (mem j extra); cbn [orb negb andb]; rewrite ?andb_false_r, ?andb_true_r; try reflexivity. apply andb_comm.
Qed.
