(** compact_excitation_circuit on the two-body excitations of the GSD pool with one repeated index. *)
From Coq Require Import Reals String List Arith Bool Lia Lra Sorted FunctionalExtensionality.
From Verif Require Import CBase Result Bits Spec GateModel ComputerModel SafeProofs LibProofs CircuitModel PyModel SQSpec ExpSpec ExpProofs ThreeQubit CompactModel CompactRot CompactAct CompactFermi CompactProofs.
Import ListNotations.
Local Open Scope nat_scope.

Definition gset (p q s : nat) (I : nat) : bool := bit I q && xorb (bit I p) (bit I s).
(** occupied orbitals between p and s, apart from q *)
Definition gsign (p q s : nat) (I : nat) : bool := let K := cleared [p; s; q] I in xorb (odd_below K p) (odd_below K s).
Lemma ltb_nn x : (x <? x) = false.
Proof. apply Nat.ltb_irrefl. Qed.
Lemma ltb_flip x y : x <> y -> (x <? y) = negb (y <? x).
Proof. intros N. destruct (Nat.ltb_spec x y), (Nat.ltb_spec y x); try reflexivity; lia. Qed.
Lemma flips_ext_bits a b I J : (forall k, bit (flips a I) k = bit (flips b J) k) -> flips a I = flips b J.
Proof. apply bits_ext. Qed.
Lemma cleared_two p q s I : p <> q -> bit I p = true -> bit I q = true -> bit I s = false -> cleared [p; s; q] I = flips [p; q] I.
Proof.
  intros Nd Bp Bq Bs. apply bits_ext. intros k. rewrite bit_cleared, bit_flips by (repeat constructor; cbn; tauto || (intros [?|[]]; congruence)).
  unfold mem. cbn [existsb]. destruct (Nat.eqb_spec k p) as [->|]; cbn [orb]; [now rewrite Bp|]. destruct (Nat.eqb_spec k s) as [->|]; cbn [orb].
  - destruct (Nat.eqb_spec s q) as [->|]; cbn [orb]; congruence.
  - destruct (Nat.eqb_spec k q) as [->|]; cbn [orb]; [now rewrite Bq|reflexivity].
Qed.
Lemma below_two I x y k : x <> y -> odd_below (flips [x; y] I) k = xorb (odd_below I k) (xorb (x <? k) (y <? k)).
Proof. intros N. rewrite below_flips by (repeat constructor; cbn; tauto || (intros [?|[]]; congruence)). unfold xs. cbn [map fold_right]. now rewrite xorb_false_r. Qed.
Lemma flips_gsd p q s cre ann I : p <> q -> q <> s -> (cre = [p; q] \/ cre = [q; p]) -> (ann = [q; s] \/ ann = [s; q]) -> flips ann (flips cre I) = flips [p; s] I.
Proof.
  intros N1 N2 [-> | ->] [-> | ->]; unfold flips; cbn [fold_left]; apply bits_ext; intros k; rewrite !bit_flip; destruct (Nat.eqb k p), (Nat.eqb k q), (Nat.eqb k s); rewrite ?negb_involutive; reflexivity.
Qed.
Lemma gsd_cond p q s cre ann I : p <> q -> q <> s -> p <> s -> (cre = [p; q] \/ cre = [q; p]) -> (ann = [q; s] \/ ann = [s; q]) ->
  forallb (fun k => bit I k) cre && forallb (fun k => negb (bit (flips cre I) k)) ann = bit I q && bit I p && negb (bit I s).
Proof.
  intros N1 N2 N3 Hc Ha. assert (Bq : bit (flips cre I) q = negb (bit I q)).
  { destruct Hc as [-> | ->]; unfold flips; cbn [fold_left]; rewrite !bit_flip, Nat.eqb_refl, (proj2 (Nat.eqb_neq q p)) by congruence; reflexivity. }
  assert (Bs : bit (flips cre I) s = bit I s).
  { destruct Hc as [-> | ->]; unfold flips; cbn [fold_left]; rewrite !bit_flip, (proj2 (Nat.eqb_neq s p)), (proj2 (Nat.eqb_neq s q)) by congruence; reflexivity. }
  destruct Hc as [-> | ->], Ha as [-> | ->]; cbn [forallb]; rewrite ?Bq, ?Bs; destruct (bit I p), (bit I q), (bit I s); reflexivity.
Qed.
Lemma gsd_ladder p q s cre ann psi I : p <> q -> q <> s -> p <> s -> (cre = [p; q] \/ cre = [q; p]) -> (ann = [q; s] \/ ann = [s; q]) -> desc cre -> desc ann ->
  ladder_act cre ann psi I = if bit I q && bit I p && negb (bit I s) then (sgn (negb (gsign p q s I)) * psi (flips [p; s] I))%C else C0.
Proof.
  intros N1 N2 N3 Hc Ha Dc Da. rewrite ladder_eval by now apply desc_NoDup. rewrite (gsd_cond p q s) by assumption. destruct (bit I q) eqn:Bq; [|reflexivity]. destruct (bit I p) eqn:Bp; [|reflexivity]. destruct (bit I s) eqn:Bs; [reflexivity|]. cbn [andb negb].
  rewrite (flips_gsd p q s) by assumption. f_equal. f_equal. rewrite !cs_desc by assumption. unfold gsign. rewrite cleared_two by assumption. rewrite !below_two by exact N1.
  assert (Ec : flips cre I = flips [p; q] I) by (destruct Hc as [-> | ->]; [reflexivity | unfold flips; cbn [fold_left]; apply bits_ext; intros k; rewrite !bit_flip; destruct (Nat.eqb k p), (Nat.eqb k q); reflexivity]).
  rewrite Ec. assert (Xc : xs (odd_below I) cre = xorb (odd_below I p) (odd_below I q)) by (destruct Hc as [-> | ->]; unfold xs; cbn [map fold_right]; rewrite xorb_false_r; [reflexivity | apply xorb_comm]).
  assert (Xa : xs (odd_below (flips [p; q] I)) ann = xorb (odd_below (flips [p; q] I) q) (odd_below (flips [p; q] I) s)) by (destruct Ha as [-> | ->]; unfold xs; cbn [map fold_right]; rewrite xorb_false_r; [reflexivity | apply xorb_comm]).
  rewrite Xc, Xa, !below_two by exact N1. rewrite !ltb_nn. rewrite (ltb_flip q p) by congruence.
  destruct (odd_below I p), (odd_below I q), (odd_below I s), (p <? q), (p <? s), (q <? s); reflexivity.
Qed.
Lemma gsign_sym p q s I : gsign s q p I = gsign p q s I.
Proof.
  unfold gsign. replace (cleared [s; p; q] I) with (cleared [p; s; q] I); [apply xorb_comm|]. apply bits_ext. intros k. rewrite !bit_cleared. unfold mem. cbn [existsb]. destruct (Nat.eqb k p), (Nat.eqb k s), (Nat.eqb k q); reflexivity.
Qed.
Lemma NoDup2 (x y : nat) : x <> y -> NoDup [x; y].
Proof. intros N. constructor; [intros [?|[]]; congruence|]. constructor; [intros []|constructor]. Qed.
Lemma flips2_sym x y I : flips [x; y] I = flips [y; x] I.
Proof. unfold flips. cbn [fold_left]. apply bits_ext; intros k; rewrite !bit_flip; destruct (Nat.eqb k x), (Nat.eqb k y); reflexivity. Qed.
Lemma gsd_fermi_generator p q s cre ann psi I : p <> q -> q <> s -> p <> s -> (cre = [p; q] \/ cre = [q; p]) -> (ann = [q; s] \/ ann = [s; q]) -> desc cre -> desc ann ->
  generator (gset p q s) p (flips [p; s]) (fun I => sgn true * sgn (gsign p q s I))%C psi I = fermi_act (kappa cre ann) psi I.
Proof.
  intros N1 N2 N3 Hc Ha Dc Da. unfold fermi_act, kappa, generator, gset. rewrite !Csum_cons, Csum_nil. unfold fcoef, fcre, fann. cbn [fst snd].
  rewrite (gsd_ladder p q s cre ann) by assumption. rewrite (gsd_ladder s q p ann cre) by (try congruence; try assumption; tauto). rewrite (flips2_sym s p), (gsign_sym p q s).
  destruct (bit I q), (bit I p), (bit I s); cbn [andb xorb negb]; destruct (gsign p q s I); cbn [sgn negb]; apply C_ext; cbn; ring.
Qed.
Lemma gsd_qexc_generator p q s cre ann psi I : p <> q -> q <> s -> p <> s -> (cre = [p; q] \/ cre = [q; p]) -> (ann = [q; s] \/ ann = [s; q]) ->
  generator (gset p q s) p (flips [p; s]) (fun _ => C1) psi I = qexc_act (kappa cre ann) psi I.
Proof.
  intros N1 N2 N3 Hc Ha. unfold qexc_act, kappa, generator, gset. rewrite !Csum_cons, Csum_nil. unfold fcoef, fcre, fann. cbn [fst snd].
  assert (Nc : NoDup cre) by (destruct Hc as [-> | ->]; apply NoDup2; congruence). assert (Na : NoDup ann) by (destruct Ha as [-> | ->]; apply NoDup2; congruence).
  rewrite !qladder_eval by assumption. rewrite (gsd_cond p q s) by assumption. rewrite (gsd_cond s q p) by (try congruence; tauto). rewrite (flips_gsd p q s cre ann) by assumption. rewrite (flips_gsd s q p ann cre) by (try congruence; tauto). rewrite (flips2_sym s p).
  destruct (bit I q), (bit I p), (bit I s); cbn [andb xorb negb]; apply C_ext; cbn; ring.
Qed.
Lemma gset_exp p q s sg y psi : p <> q -> q <> s -> p <> s -> (forall I, (sg I * sg (flips [p; s] I))%C = C1) ->
  is_exp (RtoC y) (generator (gset p q s) p (flips [p; s]) sg) psi (rotate (gset p q s) y p (flips [p; s]) sg psi).
Proof.
  intros N1 N2 N3 Hs. assert (N : NoDup [p; s]) by now apply NoDup2.
  assert (Bp : forall I, bit (flips [p; s] I) p = negb (bit I p)) by (intros I; rewrite bit_flips by exact N; unfold mem; cbn [existsb]; now rewrite Nat.eqb_refl).
  assert (Bs : forall I, bit (flips [p; s] I) s = negb (bit I s)) by (intros I; rewrite bit_flips by exact N; unfold mem; cbn [existsb]; now rewrite Nat.eqb_refl, orb_true_r).
  assert (Bq : forall I, bit (flips [p; s] I) q = bit I q) by (intros I; rewrite bit_flips by exact N; unfold mem; cbn [existsb]; rewrite (proj2 (Nat.eqb_neq q p)), (proj2 (Nat.eqb_neq q s)) by congruence; reflexivity).
  apply rotate_is_exp.
  - intros I. unfold gset. rewrite Bp, Bs, Bq. destruct (bit I q), (bit I p), (bit I s); cbn; congruence.
  - intros I _. now apply flips_twice.
  - intros I _. apply Bp.
  - intros I _. apply Hs.
Qed.
Lemma excites_gsd p q s I : p <> q -> q <> s -> p <> s -> excites p s [] [] [q] I = gset p q s I.
Proof.
  intros N1 N2 N3. unfold excites, gset. cbn [rev app map forallb kind negb]. unfold fires. cbn [fst snd].
  rewrite !bit_sigma by (apply (NoDup2 p s), N3). cbn [mem existsb]. change (kind true q) with (false, q). cbn [fst snd]. rewrite Nat.eqb_refl, (proj2 (Nat.eqb_neq q s)) by congruence. destruct (bit I p), (bit I s), (bit I q); reflexivity.
Qed.
Lemma gset_sigma p q s l I : (forall k, In k [p; s; q] -> ~ In k l) -> gset p q s (sigma (stair_pairs l) I) = gset p q s I.
Proof. intros D. unfold gset. rewrite !stair_off by (apply D; cbn; tauto). reflexivity. Qed.
Lemma gsign_flips p q s I : p <> s -> gsign p q s (flips [p; s] I) = gsign p q s I.
Proof.
  intros N. unfold gsign. replace (cleared [p; s; q] (flips [p; s] I)) with (cleared [p; s; q] I); [reflexivity|]. apply bits_ext. intros k. rewrite !bit_cleared, bit_flips by (now apply NoDup2). unfold mem. cbn [existsb]. destruct (Nat.eqb k p), (Nat.eqb k s), (Nat.eqb k q); reflexivity.
Qed.

(** what compact_excitation_circuit computes from the lists *)
Lemma gsd_lists p q s cre ann : p <> q -> q <> s -> p <> s -> (cre = [p; q] \/ cre = [q; p]) -> (ann = [q; s] \/ ann = [s; q]) ->
  filter (fun x => negb (mem x ann)) cre = [p] /\ filter (fun x => negb (mem x cre)) ann = [s] /\ nodup Nat.eq_dec (filter (fun x => mem x ann) cre) = [q].
Proof.
  intros N1 N2 N3 Hc Ha.
  assert (M : mem p ann = false /\ mem q ann = true /\ mem q cre = true /\ mem s cre = false).
  { destruct Hc as [-> | ->], Ha as [-> | ->]; repeat split; unfold mem; cbn [existsb]; rewrite ?Nat.eqb_refl, ?(proj2 (Nat.eqb_neq p q)), ?(proj2 (Nat.eqb_neq p s)), ?(proj2 (Nat.eqb_neq s p)), ?(proj2 (Nat.eqb_neq s q)), ?orb_true_r by congruence; reflexivity. }
  destruct M as (M1 & M2 & M3 & M4).
  assert (F1 : filter (fun x => negb (mem x ann)) cre = [p]) by (destruct Hc as [-> | ->]; cbn [filter]; rewrite M1, M2; reflexivity).
  assert (F2 : filter (fun x => negb (mem x cre)) ann = [s]) by (destruct Ha as [-> | ->]; cbn [filter]; rewrite M3, M4; reflexivity).
  assert (F3 : filter (fun x => mem x ann) cre = [q]) by (destruct Hc as [-> | ->]; cbn [filter]; rewrite M1, M2; reflexivity).
  rewrite F1, F2, F3. repeat split; reflexivity.
Qed.
Definition unique_flag (d : list nat) : bool := if list_eq_dec Nat.eq_dec d [0; 0] then true else if list_eq_dec Nat.eq_dec d [1; 1] then true else false.
Lemma dup_A p q s : p <> q -> s <> q -> duplicates [q; p] [q; s] q = Ok [0; 0].
Proof. intros N1 N2. unfold duplicates. cbn [foreach bind py_at nth_error]. rewrite Nat.eqb_refl, (proj2 (Nat.eqb_neq p q)), (proj2 (Nat.eqb_neq s q)) by congruence. reflexivity. Qed.
Lemma dup_B p q s : p <> q -> s <> q -> duplicates [p; q] [s; q] q = Ok [1; 1].
Proof. intros N1 N2. unfold duplicates. cbn [foreach bind py_at nth_error]. rewrite Nat.eqb_refl, (proj2 (Nat.eqb_neq p q)), (proj2 (Nat.eqb_neq s q)) by congruence. reflexivity. Qed.
Lemma dup_C p q s : p <> q -> s <> q -> duplicates [p; q] [q; s] q = Ok [0; 1].
Proof. intros N1 N2. unfold duplicates. cbn [foreach bind py_at nth_error]. rewrite Nat.eqb_refl, (proj2 (Nat.eqb_neq p q)), (proj2 (Nat.eqb_neq s q)) by congruence. reflexivity. Qed.
Lemma dup_D p q s : p <> q -> s <> q -> duplicates [q; p] [s; q] q = Ok [0; 1].
Proof. intros N1 N2. unfold duplicates. cbn [foreach bind py_at nth_error]. rewrite Nat.eqb_refl, (proj2 (Nat.eqb_neq p q)), (proj2 (Nat.eqb_neq s q)) by congruence. reflexivity. Qed.
(** which lists the staircase is built from *)
Definition stair_lists (p q s : nat) (cre ann : list nat) : list nat * list nat := if Nat.eqb (hd 0 cre) (hd 0 ann) || Nat.eqb (nth 1 cre 0) (nth 1 ann 0) then ([p], [s]) else (cre, ann).
Lemma gsd_expand th p q s cre ann qe : p <> q -> q <> s -> p <> s -> (cre = [p; q] \/ cre = [q; p]) -> (ann = [q; s] \/ ann = [s; q]) ->
  compact_excitation_circuit (RtoC th) cre ann qe =
   (do st <- (if qe : bool then Ok [] else fermion_sign_circuit (fst (stair_lists p q s cre ann)) (snd (stair_lists p q s cre ann)));
    do exc <- qubit_excitation (RtoC th) [p] [s] [q] (-1) qe;
    Ok (st ++ exc ++ (if qe then [] else circuit_adjoint st))%list).
Proof.
  intros N1 N2 N3 Hc Ha. unfold compact_excitation_circuit. destruct (gsd_lists p q s cre ann N1 N2 N3 Hc Ha) as (F1 & F2 & F3). rewrite F1, F2, F3.
  assert (Ln : negb (length cre =? length ann) = false) by (destruct Hc as [-> | ->], Ha as [-> | ->]; reflexivity). rewrite Ln. cbn [length Nat.ltb Nat.leb].
  destruct Hc as [-> | ->], Ha as [-> | ->].
  - rewrite dup_C by congruence. unfold stair_lists. cbn [bind hd nth]. rewrite (proj2 (Nat.eqb_neq p q)), (proj2 (Nat.eqb_neq q s)) by congruence. reflexivity.
  - rewrite dup_B by congruence. unfold stair_lists. cbn [bind hd nth]. rewrite Nat.eqb_refl, orb_true_r. reflexivity.
  - rewrite dup_A by congruence. unfold stair_lists. cbn [bind hd nth]. rewrite Nat.eqb_refl. reflexivity.
  - rewrite dup_D by congruence. unfold stair_lists. cbn [bind hd nth]. rewrite (proj2 (Nat.eqb_neq q s)), (proj2 (Nat.eqb_neq p q)) by congruence. reflexivity.
Qed.
Lemma desc2 x y : desc [x; y] <-> y < x.
Proof. split; [intros D; inversion D as [|? ? _ F]; subst; now inversion F | intros L; constructor; [constructor; [constructor|constructor] | constructor; [exact L|constructor]]]. Qed.
Lemma between_off (p q s k : nat) : In k (cnot_indices [p; s]) -> (p < k < s \/ s < k < p).
Proof.
  intros I. unfold cnot_indices in I. rewrite <- in_rev in I. apply filter_In in I. destruct I as (_ & I). unfold z_survives in I. destruct (mem k [p; s]) eqn:M; [discriminate|]. apply mem_not in M. cbn [In] in M. cbn [fold_left] in I.
  destruct (Nat.ltb_spec k p), (Nat.ltb_spec k s); cbn in I; try discriminate; lia.
Qed.
Lemma filter_id {X} (f : X -> bool) l : (forall x, In x l -> f x = true) -> filter f l = l.
Proof. induction l as [|x r IH]; intros H; [reflexivity|]. cbn [filter]. rewrite (H x (or_introl eq_refl)), IH; [reflexivity|]. intros y Iy. apply H. now right. Qed.
(** the sign staircase in the patterns where it is right *)
Lemma gsd_stair p q s cre ann : p <> q -> q <> s -> p <> s -> (cre = [p; q] \/ cre = [q; p]) -> (ann = [q; s] \/ ann = [s; q]) -> desc cre -> desc ann -> nth 1 ann 0 <> hd 0 cre ->
  exists l, fermion_sign_circuit (fst (stair_lists p q s cre ann)) (snd (stair_lists p q s cre ann)) = Ok (stair p l) /\ NoDup l /\ (forall k, In k [p; s; q] -> ~ In k l) /\ forall I, parity l I = gsign p q s I.
Proof.
  intros N1 N2 N3 Hc Ha Dc Da Nd.
  assert (U : (q < p /\ q < s \/ p < q /\ s < q) -> exists l, fermion_sign_circuit [p] [s] = Ok (stair p l) /\ NoDup l /\ (forall k, In k [p; s; q] -> ~ In k l) /\ forall I, parity l I = gsign p q s I).
  { intros O. exists (cnot_indices [p; s]). split; [apply sign_model|]. split; [apply indices_NoDup|].
    assert (Oq : ~ In q (cnot_indices [p; s])) by (intros K; apply (between_off p q s) in K; lia).
    split; [intros k [<-|[<-|[<-|[]]]]; [apply indices_off; now left | apply indices_off; right; now left | exact Oq]|].
    intros I. rewrite <- (filter_id (fun j => negb (mem j [q])) (cnot_indices [p; s])). 2: { intros k Ik. unfold mem. cbn [existsb]. destruct (Nat.eqb_spec k q) as [->|]; [contradiction|reflexivity]. }
    rewrite parity_indices. unfold xs, gsign. cbn [map fold_right app]. now rewrite xorb_false_r. }
  destruct Hc as [-> | ->], Ha as [-> | ->]; apply desc2 in Dc; apply desc2 in Da; cbn [hd nth] in Nd; unfold stair_lists; cbn [hd nth].
  - rewrite (proj2 (Nat.eqb_neq p q)), (proj2 (Nat.eqb_neq q s)) by congruence. cbn [orb fst snd]. exists (cnot_indices [p; q; q; s]). split; [apply (sign_model p [q] [q; s])|]. split; [apply indices_NoDup|]. split; [intros k [<-|[<-|[<-|[]]]]; apply indices_off; cbn; tauto|].
    intros I. rewrite <- (filter_id (fun j => negb (mem j [])) (cnot_indices [p; q; q; s])) by reflexivity. rewrite parity_indices. unfold xs, gsign. cbn [map fold_right app].
    replace (cleared [p; q; q; s] I) with (cleared [p; s; q] I). 2: { apply bits_ext. intros k. rewrite !bit_cleared. unfold mem. cbn [existsb]. destruct (Nat.eqb k p), (Nat.eqb k s), (Nat.eqb k q); reflexivity. }
    destruct (odd_below _ p), (odd_below _ q), (odd_below _ s); reflexivity.
  - rewrite Nat.eqb_refl, orb_true_r. apply U. lia.
  - rewrite Nat.eqb_refl. apply U. lia.
  - congruence.
Qed.

Theorem compact_fermi_gsd th p q s cre ann : p <> q -> q <> s -> p <> s -> (cre = [p; q] \/ cre = [q; p]) -> (ann = [q; s] \/ ann = [s; q]) -> desc cre -> desc ann -> nth 1 ann 0 <> hd 0 cre ->
  exists circ, compact_excitation_circuit (RtoC th) cre ann false = Ok circ /\ forall psi, is_exp (RtoC th) (fermi_act (kappa cre ann)) psi (circ_act circ psi).
Proof.
  intros N1 N2 N3 Hc Ha Dc Da Nd. rewrite (gsd_expand th p q s) by assumption. destruct (gsd_stair p q s cre ann N1 N2 N3 Hc Ha Dc Da Nd) as (l & El & Nl & Dl & Pl). rewrite El. cbn [bind].
  destruct (qubit_excitation_spec th p [] s [] [q] (-1) false (NoDup2 p s N3)) as (U & EU & HU); [intros [?|[]]; congruence|]. rewrite EU. cbn [bind]. eexists. split; [reflexivity|]. intros psi.
  apply (is_exp_op _ (generator (gset p q s) p (flips [p; s]) (fun I => sgn true * sgn (gsign p q s I))%C)); [intros f I; now apply gsd_fermi_generator|].
  apply (is_exp_res _ _ _ (rotate (gset p q s) th p (flips [p; s]) (fun I => (sgn true * sgn (gsign p q s I))%C) psi)).
  2: { apply gset_exp; try assumption. intros I. rewrite gsign_flips by exact N3. transitivity ((sgn true * sgn true) * (sgn (gsign p q s I) * sgn (gsign p q s I)))%C; [ring|]. rewrite !sgn_sq. ring. }
  intros I. symmetry. rewrite (stair_all p l [p; s] U (gset p q s) (ry_factor 1 (-1) false * th)); [|exact Nl|now apply NoDup2|intros k Ik; apply Dl; cbn in *; tauto|now left|intros J; now apply gset_sigma|].
  - rewrite <- rotate_sign. apply rotate_ext; [reflexivity| |now rewrite Pl]. f_equal. unfold ry_factor. rewrite prefactor_tri by lia. cbn [tri Nat.odd Nat.even negb xorb]. ring.
  - intros f J. rewrite HU. apply rotate_ext; [now apply excites_gsd | reflexivity | reflexivity].
Qed.
Theorem compact_qubit_gsd th p q s cre ann : p <> q -> q <> s -> p <> s -> (cre = [p; q] \/ cre = [q; p]) -> (ann = [q; s] \/ ann = [s; q]) ->
  exists circ, compact_excitation_circuit (RtoC th) cre ann true = Ok circ /\ forall psi, is_exp (RtoC th) (qexc_act (kappa cre ann)) psi (circ_act circ psi).
Proof.
  intros N1 N2 N3 Hc Ha. rewrite (gsd_expand th p q s) by assumption. cbn [bind].
  destruct (qubit_excitation_spec th p [] s [] [q] (-1) true (NoDup2 p s N3)) as (U & EU & HU); [intros [?|[]]; congruence|]. rewrite EU. cbn [bind app]. eexists. split; [reflexivity|]. intros psi. rewrite app_nil_r.
  apply (is_exp_op _ (generator (gset p q s) p (flips [p; s]) (fun _ => C1))); [intros f I; now apply gsd_qexc_generator|].
  apply (is_exp_res _ _ _ (rotate (gset p q s) th p (flips [p; s]) (fun _ => C1) psi)); [|apply gset_exp; try assumption; intros; ring].
  intros I. rewrite HU. apply rotate_ext; [symmetry; now apply excites_gsd | unfold ry_factor; ring | reflexivity].
Qed.

(** ---- the pattern q^ p^ s q ---- *)
Lemma stair_conj_off c0 p l X U A b : l <> [] -> NoDup l -> NoDup X -> (forall k, In k X -> ~ In k l) -> ~ In c0 X -> ~ In c0 l -> (forall I, A (sigma (stair_pairs l) I) = A I) -> ~ In p l ->
  (forall psi I, circ_act U psi I = rotate A b p (flips X) (fun _ => C1) psi I) ->
  forall psi I, circ_act (stair_circ c0 l ++ U ++ circuit_adjoint (stair_circ c0 l)) psi I = rotate A b p (flips X) (fun _ => C1) psi I.
Proof.
  intros Ne Nl NX D Ic Nc' HA Np HU psi I. set (s := sigma (stair_pairs l)). set (z := last l 0). assert (Iz : In z l) by (apply last_In, Ne).
  assert (Nc : c0 <> z) by (intros ->; contradiction).
  set (d := fun J => GateEval.sgn (bit J z && bit J c0)).
  assert (Act : forall psi x, circ_act (stair_circ c0 l) psi (s x) = (d (s x) * psi x)%C).
  { intros f x. unfold stair_circ. rewrite circ_act_app. unfold circ_act at 1. cbn [fold_left]. fold z. rewrite cZ_act by exact Nc. unfold s. rewrite sigma_act by (apply stair_proper, Nl). reflexivity. }
  rewrite !circ_act_app. rewrite (adjoint_perm (stair_circ c0 l) d s); [| |intros J; unfold d, GateEval.sgn; destruct (_ && _); ring | apply sigma_surj, stair_proper, Nl | exact Act].
  2: { apply Forall_app. split; [apply cnots_lib, stair_proper, Nl | constructor; [eapply py_lib, py_cZ, Nc|constructor]]. }
  rewrite HU. unfold rotate. assert (HA' : A (s I) = A I) by apply HA. assert (HF : flips X (s I) = s (flips X I)) by (symmetry; apply stair_flips; assumption). rewrite HA', HF, !Act.
  assert (Bp : bit (s I) p = bit I p) by (apply stair_off, Np). rewrite Bp.
  assert (Ed : d (s (flips X I)) = d (s I)).
  { unfold d, s, z. rewrite !(stair_last l 0 Ne Nl), !(stair_off l _ c0 Nc'). rewrite (bit_flips X NX), (proj2 (mem_not c0 X) Ic).
    rewrite (parity_ext l (flips X I) I); [reflexivity|]. intros k Ik. rewrite (bit_flips X NX). destruct (mem k X) eqn:E; [apply mem_In in E; exfalso; now apply (D k) | reflexivity]. }
  rewrite Ed. assert (Dd : (d (s I) * d (s I))%C = C1) by (unfold d, GateEval.sgn; destruct (_ && _); ring). set (dd := d (s I)) in *.
  destruct (A I); [|transitivity (dd * dd * psi I)%C; [ring | rewrite Dd; ring]].
  transitivity (dd * dd * (RtoC (cos b) * psi I + RtoC (if bit I p then sin b else - sin b) * (C1 * psi (flips X I))))%C; [ring|]. rewrite Dd. ring.
Qed.
Lemma is_exp_unique c A psi phi phi' : is_exp c A psi phi -> is_exp c A psi phi' -> forall I, phi I = phi' I.
Proof. intros H H' I. destruct (H I) as (H1 & H2), (H' I) as (H3 & H4). apply C_ext; eapply UL_sequence; eassumption. Qed.
Theorem compact_gsd_wrong th p q s : p < q -> q < s -> p + 2 < s -> sin th <> 0%R ->
  exists circ, compact_excitation_circuit (RtoC th) [q; p] [s; q] false = Ok circ /\ ~ forall psi, is_exp (RtoC th) (fermi_act (kappa [q; p] [s; q])) psi (circ_act circ psi).
Proof.
  intros L1 L2 L3 Hs. assert (N1 : p <> q) by lia. assert (N2 : q <> s) by lia. assert (N3 : p <> s) by lia.
  rewrite (gsd_expand th p q s) by (try assumption; tauto). unfold stair_lists. cbn [hd nth]. rewrite (proj2 (Nat.eqb_neq p q)), (proj2 (Nat.eqb_neq q s)) by congruence. cbn [orb fst snd]. rewrite (sign_model q [p] [s; q]). cbn [bind app].
  set (l := cnot_indices [q; p; s; q]). assert (Nl : NoDup l) by apply indices_NoDup. assert (Dl : forall k, In k [p; s; q] -> ~ In k l) by (intros k [<-|[<-|[<-|[]]]]; apply indices_off; cbn; tauto).
  assert (Ez : exists z, p < z < s /\ z <> q) by (destruct (Nat.eq_dec q (p + 1)); [exists (p + 2); lia | exists (p + 1); lia]). destruct Ez as (z & Lz & Nz).
  assert (Iz : In z l). { unfold l, cnot_indices. rewrite <- in_rev. apply filter_In. split; [apply in_seq; unfold list_max; cbn [fold_right]; lia|]. unfold z_survives. rewrite (proj2 (mem_not z _)) by (cbn [In]; lia). cbn [fold_left]. destruct (Nat.ltb_spec z q), (Nat.ltb_spec z p), (Nat.ltb_spec z s); cbn; try reflexivity; lia. }
  destruct (qubit_excitation_spec th p [] s [] [q] (-1) false (NoDup2 p s N3)) as (U & EU & HU); [intros [?|[]]; congruence|]. rewrite EU. cbn [bind]. eexists. split; [reflexivity|]. intros H.
  assert (Ne : l <> []) by (intros E; rewrite E in Iz; destruct Iz). unfold stair in H. destruct l as [|l0 lr] eqn:El; [congruence|]. rewrite <- El in *. clear El l0 lr.
  set (I := flips [p; q; z] 0). set (J := flips [p; s] I).
  assert (Nt : NoDup [p; q; z]) by (repeat constructor; cbn; lia).
  assert (bI : forall k, bit I k = mem k [p; q; z]) by (intros k; unfold I; rewrite bit_flips by exact Nt; unfold bit; rewrite Nat.bits_0; destruct (mem k [p; q; z]); reflexivity).
  set (psi := fun K => if Nat.eqb K J then C1 else C0). specialize (H psi).
  assert (R : is_exp (RtoC th) (fermi_act (kappa [q; p] [s; q])) psi (rotate (gset p q s) th p (flips [p; s]) (fun I => (sgn true * sgn (gsign p q s I))%C) psi)).
  { apply (is_exp_op _ (generator (gset p q s) p (flips [p; s]) (fun I => sgn true * sgn (gsign p q s I))%C)); [intros f K; apply gsd_fermi_generator; try assumption; try tauto; now apply desc2|].
    apply gset_exp; try assumption. intros K. rewrite gsign_flips by exact N3. transitivity ((sgn true * sgn true) * (sgn (gsign p q s K) * sgn (gsign p q s K)))%C; [ring|]. rewrite !sgn_sq. ring. }
  pose proof (is_exp_unique _ _ _ _ _ H R I) as E. clear H R.
  rewrite (stair_conj_off q p l [p; s] U (gset p q s) (- th)) in E; [|exact Ne|exact Nl|now apply NoDup2|intros k Ik; apply Dl; cbn in *; tauto|cbn; lia|apply Dl; cbn; tauto|intros K; now apply gset_sigma|apply Dl; now left|].
  2: { intros f K. rewrite HU. apply rotate_ext; [now apply excites_gsd | unfold ry_factor; cbn [length]; rewrite prefactor_tri by lia; cbn [tri Nat.odd Nat.even negb xorb length]; ring | reflexivity]. }
  assert (Bp : bit I p = true) by (rewrite bI; apply mem_In; now left). assert (Bq : bit I q = true) by (rewrite bI; apply mem_In; right; now left). assert (Bs : bit I s = false) by (rewrite bI; apply mem_not; cbn [In]; lia).
  unfold rotate in E. unfold gset in E. rewrite Bp, Bq, Bs in E. cbn [andb xorb] in E. fold J in E.
  assert (PI : psi I = C0). { unfold psi. replace (I =? J) with false; [reflexivity|]. symmetry. apply Nat.eqb_neq. intros K. assert (bit J p = negb (bit I p)) by (unfold J; rewrite bit_flips by (now apply NoDup2); unfold mem; cbn [existsb]; now rewrite Nat.eqb_refl). rewrite <- K, Bp in *. discriminate. }
  assert (PJ : psi J = C1) by (unfold psi; now rewrite Nat.eqb_refl). rewrite PI, PJ in E.
  assert (G : gsign p q s I = true).
  { unfold gsign. rewrite cleared_two by assumption. assert (K : flips [p; q] I = flips [z] 0). { apply bits_ext. intros k. rewrite bit_flips by (now apply NoDup2). rewrite bI. unfold flips. cbn [fold_left]. rewrite bit_flip. unfold bit. rewrite Nat.bits_0. unfold mem. cbn [existsb]. destruct (Nat.eqb_spec k p) as [->|]; cbn [orb negb].
      - destruct (Nat.eqb_spec p z); [lia|reflexivity].
      - destruct (Nat.eqb_spec k q) as [->|]; cbn [orb negb]; [destruct (Nat.eqb_spec q z); [lia|reflexivity]|]. destruct (Nat.eqb k z); reflexivity. }
    rewrite K. rewrite !below_flips by (constructor; [intros []|constructor]). unfold xs. cbn [map fold_right]. assert (O0 : forall m, odd_below 0 m = false) by (induction m as [|m IH]; [reflexivity|]; cbn [odd_below]; rewrite IH; unfold bit; now rewrite Nat.bits_0). rewrite !O0.
    destruct (Nat.ltb_spec z p), (Nat.ltb_spec z s); try lia; reflexivity. }
  rewrite G in E. apply (f_equal Re) in E. cbn in E. rewrite sin_neg in E. lra.
Qed.
