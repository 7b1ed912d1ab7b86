(** Action of the circuits built by compact_excitation_circuit on amplitudes. *)
From Coq Require Import Reals String List Arith Bool Lia Lra.
From Verif Require Import CBase Result Bits Spec GateModel ComputerModel SafeProofs GateProofs LibProofs CircuitModel PyModel GateEval ThreeQubit ExpCircuit CompactModel CompactRot.
Import ListNotations.
Local Open Scope nat_scope.

(** ---- circuits of CNOTs permute the basis ---- *)
Definition cx (p : nat * nat) (I : nat) : nat := if bit I (snd p) then flip I (fst p) else I.
Definition sigma (l : list (nat * nat)) (I : nat) : nat := fold_left (fun I p => cx p I) l I.
Definition cnots (l : list (nat * nat)) : list gate := map (fun p => gCN (fst p) (snd p)) l.
Definition proper (l : list (nat * nat)) : Prop := Forall (fun p => fst p <> snd p) l.
Lemma bit_cx t c I k : bit (cx (t, c) I) k = if Nat.eqb k t then xorb (bit I k) (bit I c) else bit I k.
Proof. unfold cx. cbn [fst snd]. destruct (bit I c) eqn:E; [rewrite bit_flip|]; destruct (Nat.eqb k t); rewrite ?xorb_false_r, ?xorb_true_r; reflexivity. Qed.
Lemma cx_cx p I : fst p <> snd p -> cx p (cx p I) = I.
Proof.
  intros N. destruct p as (t, c). cbn [fst snd] in N. apply bits_ext. intros k. rewrite !bit_cx. rewrite (proj2 (Nat.eqb_neq c t)) by congruence. destruct (Nat.eqb k t); [|reflexivity]. destruct (bit I k), (bit I c); reflexivity.
Qed.
Lemma sigma_app a b I : sigma (a ++ b) I = sigma b (sigma a I).
Proof. apply fold_left_app. Qed.
Lemma sigma_act l : proper l -> forall psi x, circ_act (cnots l) psi (sigma l x) = psi x.
Proof.
  induction 1 as [|p r Hp _ IH]; intros psi x; [reflexivity|]. cbn [cnots map]. rewrite circ_act_cons. cbn [sigma fold_left]. fold (cnots r). fold (sigma r (cx p x)). rewrite IH, CN_act by exact Hp.
  f_equal. change (cx p (cx p x) = x). now apply cx_cx.
Qed.
Lemma sigma_surj l : proper l -> forall I, exists y, sigma l y = I.
Proof.
  induction 1 as [|p r Hp _ IH]; intros I; [exists I; reflexivity|]. destruct (IH I) as (y & Hy). exists (cx p y). cbn [sigma fold_left]. rewrite cx_cx by exact Hp. exact Hy.
Qed.
Lemma cnots_lib l : proper l -> Forall library_gate (cnots l).
Proof. induction 1 as [|p r Hp _ IH]; constructor; [|exact IH]. eapply py_lib, py_CN, Hp. Qed.
(** d(I) psi(rho I) with d = +-1: diagonal times permutation *)
Lemma adjoint_perm gs (d : nat -> C) s : Forall library_gate gs -> (forall I, (d I * d I)%C = C1) -> (forall I, exists y, s y = I) ->
  (forall psi x, circ_act gs psi (s x) = (d (s x) * psi x)%C) -> forall phi x, circ_act (circuit_adjoint gs) phi x = (d (s x) * phi (s x))%C.
Proof.
  intros L D Sj A phi x. set (chi := fun y => (d (s y) * phi (s y))%C). change (circ_act (circuit_adjoint gs) phi x = chi x).
  rewrite <- (proj1 (circuit_adjoint_undoes gs chi L) x). apply circ_act_ext. intros I. destruct (Sj I) as (y & <-). rewrite A. unfold chi. transitivity (d (s y) * d (s y) * phi (s y))%C; [rewrite D; ring | ring].
Qed.

Lemma mem_In x l : mem x l = true <-> In x l.
Proof. unfold mem. rewrite existsb_exists. split; [intros (y & I & E); apply Nat.eqb_eq in E; now subst | intros I; exists x; split; [exact I | apply Nat.eqb_refl]]. Qed.
Lemma mem_not x l : mem x l = false <-> ~ In x l.
Proof. rewrite <- mem_In. destruct (mem x l); split; intros H; [discriminate | exfalso; now apply H | intros K; discriminate | reflexivity]. Qed.
Lemma mem_app x a b : mem x (a ++ b) = mem x a || mem x b.
Proof. apply existsb_app. Qed.
Lemma mem_cons x y l : mem x (y :: l) = Nat.eqb x y || mem x l.
Proof. reflexivity. Qed.
Definition flips (l : list nat) (I : nat) : nat := fold_left flip l I.
Lemma bit_flips l : NoDup l -> forall I k, bit (flips l I) k = if mem k l then negb (bit I k) else bit I k.
Proof.
  induction 1 as [|x r Nx _ IH]; intros I k; [reflexivity|]. cbn [flips fold_left]. fold (flips r (flip I x)). rewrite IH, bit_flip, mem_cons. apply mem_not in Nx.
  destruct (Nat.eqb_spec k x) as [->|N]; cbn [orb]; [now rewrite Nx | reflexivity].
Qed.
Lemma bit_fan c ts : NoDup ts -> ~ In c ts -> forall I k, bit (sigma (map (fun t => (t, c)) ts) I) k = if mem k ts then xorb (bit I k) (bit I c) else bit I k.
Proof.
  induction 1 as [|t r Nt _ IH]; intros Nc I k; [reflexivity|]. cbn [map sigma fold_left]. fold (sigma (map (fun t => (t, c)) r) (cx (t, c) I)). rewrite IH by (intros K; apply Nc; now right).
  rewrite !bit_cx, mem_cons. apply mem_not in Nt. rewrite (proj2 (Nat.eqb_neq c t)) by (intros ->; apply Nc; now left). destruct (Nat.eqb_spec k t) as [->|N]; cbn [orb]; [now rewrite Nt | reflexivity].
Qed.

(** ---- qubit_excitation ---- *)
Definition fan (c0 a0 : nat) (cr ar : list nat) : list (nat * nat) := (map (fun t => (t, c0)) cr ++ map (fun t => (t, a0)) ar ++ [(a0, c0)])%list.
Lemma NoDup_parts (c0 : nat) cr a0 ar : NoDup ((c0 :: cr) ++ (a0 :: ar)) ->
  NoDup cr /\ NoDup ar /\ ~ In c0 cr /\ ~ In c0 ar /\ ~ In a0 cr /\ ~ In a0 ar /\ c0 <> a0 /\ (forall k, In k cr -> ~ In k ar).
Proof.
  intros N. cbn [app] in N. inversion N as [|? ? N0 N1]; subst. rewrite in_app_iff in N0. cbn [In] in N0.
  pose proof (NoDup_remove_1 _ _ _ N1) as N2. pose proof (NoDup_remove_2 _ _ _ N1) as N3. rewrite in_app_iff in N3.
  assert (Nc : NoDup cr /\ NoDup ar /\ forall k, In k cr -> ~ In k ar).
  { clear - N2. induction cr as [|x r IH]; [split; [constructor|split; [exact N2|intros k []]]|]. cbn [app] in N2. inversion N2 as [|? ? Nx Nr]; subst. destruct (IH Nr) as (A & B & D). rewrite in_app_iff in Nx.
    split; [constructor; [tauto|exact A]|]. split; [exact B|]. intros k [<-|I]; [tauto | now apply D]. }
  destruct Nc as (Na & Nb & Nd). repeat split; try tauto. intros ->. apply N0. right. now left.
Qed.
Lemma bit_sigma c0 cr a0 ar I k : NoDup ((c0 :: cr) ++ (a0 :: ar)) ->
  bit (sigma (fan c0 a0 cr ar) I) k = if mem k cr then xorb (bit I k) (bit I c0) else if mem k ar then xorb (bit I k) (bit I a0) else if Nat.eqb k a0 then xorb (bit I a0) (bit I c0) else bit I k.
Proof.
  intros N. destruct (NoDup_parts _ _ _ _ N) as (N1 & N2 & N3 & N4 & N5 & N6 & N7 & N8). unfold fan. rewrite !sigma_app. cbn [sigma fold_left]. rewrite bit_cx.
  apply mem_not in N3 as M3. apply mem_not in N4 as M4. apply mem_not in N5 as M5. apply mem_not in N6 as M6.
  rewrite !bit_fan by assumption. rewrite M3, M4, ?M5, ?M6.
  destruct (mem k cr) eqn:E1.
  - assert (E2 : mem k ar = false) by (apply mem_not, N8, mem_In, E1). rewrite E2. destruct (Nat.eqb_spec k a0) as [->|]; [congruence|reflexivity].
  - destruct (mem k ar) eqn:E2; destruct (Nat.eqb_spec k a0) as [->|]; try reflexivity; congruence.
Qed.
Lemma fan_proper c0 cr a0 ar : NoDup ((c0 :: cr) ++ (a0 :: ar)) -> proper (fan c0 a0 cr ar).
Proof.
  intros N. destruct (NoDup_parts _ _ _ _ N) as (_ & _ & N3 & _ & _ & N6 & N7 & _). unfold proper, fan. rewrite !Forall_app. split; [|split].
  - apply Forall_forall. intros p I. apply in_map_iff in I. destruct I as (t & <- & I). cbn. intros ->. contradiction.
  - apply Forall_forall. intros p I. apply in_map_iff in I. destruct I as (t & <- & I). cbn. intros ->. contradiction.
  - constructor; [cbn; congruence|constructor].
Qed.
Lemma sigma_flips c0 cr a0 ar I : NoDup ((c0 :: cr) ++ (a0 :: ar)) -> sigma (fan c0 a0 cr ar) (flips ((c0 :: cr) ++ (a0 :: ar)) I) = flip (sigma (fan c0 a0 cr ar) I) c0.
Proof.
  intros N. destruct (NoDup_parts _ _ _ _ N) as (N1 & N2 & N3 & N4 & N5 & N6 & N7 & N8). apply bits_ext. intros k. rewrite bit_flip, !bit_sigma by exact N. rewrite !bit_flips by exact N. rewrite !mem_app, !mem_cons, Nat.eqb_refl.
  apply mem_not in N3 as M3. apply mem_not in N4 as M4. apply mem_not in N5 as M5. apply mem_not in N6 as M6. rewrite (Nat.eqb_refl a0), ?orb_true_r. cbn [orb].
  destruct (mem k cr) eqn:E1.
  - destruct (Nat.eqb_spec k c0) as [->|]; [congruence|]. cbn [orb]. destruct (bit I k), (bit I c0); reflexivity.
  - destruct (mem k ar) eqn:E2.
    + destruct (Nat.eqb_spec k c0) as [->|]; [congruence|]. cbn [orb]. rewrite orb_true_r. destruct (bit I k), (bit I a0); reflexivity.
    + destruct (Nat.eqb_spec k a0) as [->|]; cbn [orb]; rewrite ?orb_false_r, ?orb_true_r.
      * rewrite (proj2 (Nat.eqb_neq a0 c0)) by congruence. cbn [orb]. destruct (bit I a0), (bit I c0); reflexivity.
      * destruct (Nat.eqb_spec k c0) as [->|]; cbn [orb]; reflexivity.
Qed.
Lemma fan_model c0 cr a0 ar : NoDup ((c0 :: cr) ++ (a0 :: ar)) ->
  (do circ <- foreach cr (fun target circ => do c0 <- py_head (c0 :: cr); add_gate (py_gate2 "CNOT" target c0) circ) [];
   do circ <- foreach ar (fun target circ => do a0 <- py_head (a0 :: ar); add_gate (py_gate2 "CNOT" target a0) circ) circ;
   add_gate (py_gate2 "CNOT" a0 c0) circ) = Ok (cnots (fan c0 a0 cr ar)).
Proof.
  intros N. destruct (NoDup_parts _ _ _ _ N) as (_ & _ & N3 & _ & _ & N6 & N7 & _). cbn [py_head].
  rewrite (foreach_append (fun t => [gCN t c0])). 2: { intros t s I. cbn [bind]. unfold add_gate. rewrite py_CN by (intros ->; contradiction). reflexivity. }
  cbn [bind]. rewrite (foreach_append (fun t => [gCN t a0])). 2: { intros t s I. cbn [bind]. unfold add_gate. rewrite py_CN by (intros ->; contradiction). reflexivity. }
  cbn [bind]. unfold add_gate. rewrite py_CN by congruence. cbn [bind app]. f_equal. unfold cnots, fan. rewrite !map_app, !map_map, !flat_map_concat_map. cbn [fst snd map]. rewrite <- app_assoc. f_equal; [|f_equal].
  - clear. induction cr as [|x r IH]; [reflexivity|]. cbn [map concat app]. now rewrite IH.
  - clear. induction ar as [|x r IH]; [reflexivity|]. cbn [map concat app]. now rewrite IH.
Qed.
(** what the controls see *)
Definition excites (c0 a0 : nat) (cr ar gc : list nat) (I : nat) : bool :=
  forallb (fires (bit (sigma (fan c0 a0 cr ar) I))) ((false, a0) :: map (kind (match gc with [] => false | _ => true end)) (ar ++ rev cr ++ gc)).
Definition rotate (A : nat -> bool) (b : R) (c0 : nat) (F : nat -> nat) (sg : nat -> C) (psi : state) : state := fun I =>
  if A I then (RtoC (cos b) * psi I + RtoC (if bit I c0 then sin b else - sin b) * (sg I * psi (F I)))%C else psi I.
Lemma qubit_excitation_spec th c0 cr a0 ar gc gs qe : NoDup ((c0 :: cr) ++ (a0 :: ar)) -> ~ In c0 gc ->
  exists circ, qubit_excitation (RtoC th) (c0 :: cr) (a0 :: ar) gc gs qe = Ok circ /\
    forall psi I, circ_act circ psi I = rotate (excites c0 a0 cr ar gc) (ry_factor (length (a0 :: ar)) gs qe * th) c0 (flips ((c0 :: cr) ++ (a0 :: ar))) (fun _ => C1) psi I.
Proof.
  intros N Ng. destruct (NoDup_parts _ _ _ _ N) as (N1 & N2 & N3 & N4 & N5 & N6 & N7 & N8). unfold qubit_excitation. cbn [tl].
  pose proof (fan_model c0 cr a0 ar N) as FM. cbn [py_head bind] in *.
  destruct (foreach cr _ []) as [x|]; cbn [bind] in *; [|discriminate]. destruct (foreach ar _ x) as [y|]; cbn [bind] in *; [|discriminate]. rewrite FM. cbn [bind]. clear FM x y.
  assert (Fc : Forall (fun c => c0 <> c) (a0 :: ar ++ rev cr ++ gc)).
  { constructor; [exact N7|]. apply Forall_forall. intros k I ->. rewrite !in_app_iff, <- in_rev in I. tauto. }
  rewrite mcRy_model by exact Fc. cbn [bind]. eexists. split; [reflexivity|]. intros psi I. rewrite !circ_act_app.
  set (L := fan c0 a0 cr ar). assert (PL : proper L) by (apply fan_proper, N).
  rewrite (adjoint_perm (cnots L) (fun _ => C1) (sigma L)); [|apply cnots_lib, PL | intros; ring | apply sigma_surj, PL | intros; rewrite sigma_act by exact PL; ring].
  rewrite mcRy_act. 2: { apply Forall_forall. intros k Ik. destruct Ik as [<-|Ik]; [exact N7|]. apply in_map_iff in Ik. destruct Ik as (c & <- & Ik). cbn [snd kind]. rewrite Forall_forall in Fc. apply Fc. now right. }
  unfold rotate. change (forallb _ _) with (excites c0 a0 cr ar gc I).
  rewrite map_length. set (rest := (ar ++ rev cr ++ gc)%list). set (f := ry_factor _ _ _).
  assert (Ang : (2 ^ length rest * (f * (th * / INR (2 ^ length rest))) = f * th)%R).
  { rewrite pow_INR. change (INR 2) with 2%R. field. apply pow_nonzero. lra. }
  rewrite Ang. rewrite sigma_act by exact PL. unfold L. rewrite <- sigma_flips by exact N. rewrite sigma_act by exact PL. rewrite bit_sigma by exact N.
  apply mem_not in N3 as M3. apply mem_not in N4 as M4. rewrite M3, M4, (proj2 (Nat.eqb_neq c0 a0)) by exact N7.
  destruct (excites c0 a0 cr ar gc I); ring.
Qed.

(** ---- the staircase ---- *)
Fixpoint stair_pairs (l : list nat) : list (nat * nat) :=
  match l with x :: ((y :: _) as r) => (y, x) :: stair_pairs r | _ => [] end.
Definition parity (l : list nat) (I : nat) : bool := fold_right xorb false (map (bit I) l).
Lemma stair_model l : NoDup l -> forall circ, add_stair l circ = Ok (circ ++ cnots (stair_pairs l))%list.
Proof.
  induction 1 as [|x r Nx Nr IH]; intros circ; [cbn; now rewrite app_nil_r|]. destruct r as [|y r]; [cbn; now rewrite app_nil_r|].
  cbn [add_stair]. unfold add_gate. rewrite py_CN by (intros ->; apply Nx; now left). cbn [bind]. change (add_stair (y :: r) (circ ++ [gCN y x]) = Ok (circ ++ cnots (stair_pairs (x :: y :: r)))%list). rewrite IH. cbn [stair_pairs cnots map fst snd]. now rewrite <- app_assoc.
Qed.
Lemma stair_proper l : NoDup l -> proper (stair_pairs l).
Proof.
  induction 1 as [|x r Nx _ IH]; [constructor|]. destruct r as [|y r]; [constructor|]. cbn [stair_pairs]. constructor; [cbn; intros ->; apply Nx; now left | exact IH].
Qed.
Lemma stair_off l : forall I k, ~ In k l -> bit (sigma (stair_pairs l) I) k = bit I k.
Proof.
  induction l as [|x r IH]; intros I k N; [reflexivity|]. destruct r as [|y r]; [reflexivity|]. cbn [stair_pairs sigma fold_left]. fold (sigma (stair_pairs (y :: r)) (cx (y, x) I)). rewrite IH by (intros K; apply N; now right).
  rewrite bit_cx. destruct (Nat.eqb_spec k y) as [->|]; [exfalso; apply N; right; now left | reflexivity].
Qed.
Lemma parity_ext l I J : (forall k, In k l -> bit I k = bit J k) -> parity l I = parity l J.
Proof. intros H. unfold parity. f_equal. apply map_ext_in. exact H. Qed.
Lemma stair_last l d : l <> [] -> NoDup l -> forall I, bit (sigma (stair_pairs l) I) (last l d) = parity l I.
Proof.
  intros Ne Nd. induction l as [|x r IH]; [contradiction|]. intros I. destruct r as [|y r]; [unfold parity; cbn; now rewrite xorb_false_r|]. inversion Nd as [|? ? Nx Nr]; subst.
  cbn [stair_pairs sigma fold_left]. fold (sigma (stair_pairs (y :: r)) (cx (y, x) I)). change (last (x :: y :: r) d) with (last (y :: r) d). rewrite IH by (congruence || assumption).
  unfold parity. cbn [map fold_right]. rewrite bit_cx, Nat.eqb_refl. inversion Nr as [|? ? Ny _]; subst.
  replace (map (bit (cx (y, x) I)) r) with (map (bit I) r); [destruct (bit I y), (bit I x), (fold_right xorb false (map (bit I) r)); reflexivity|].
  apply map_ext_in. intros k Ik. rewrite bit_cx. destruct (Nat.eqb_spec k y) as [->|]; [contradiction|reflexivity].
Qed.
Lemma stair_flips l X : NoDup X -> (forall k, In k X -> ~ In k l) -> forall I, sigma (stair_pairs l) (flips X I) = flips X (sigma (stair_pairs l) I).
Proof.
  intros NX D. induction l as [|x r IH]; intros I; [reflexivity|]. destruct r as [|y r]; [reflexivity|]. change (sigma (stair_pairs (y :: r)) (cx (y, x) (flips X I)) = flips X (sigma (stair_pairs (y :: r)) (cx (y, x) I))).
  rewrite <- IH by (intros k Ik K; apply (D k Ik); now right). f_equal. apply bits_ext. intros k. rewrite bit_cx, !bit_flips by exact NX. rewrite bit_cx.
  assert (Mx : mem x X = false) by (apply mem_not; intros K; apply (D x K); now left). assert (My : mem y X = false) by (apply mem_not; intros K; apply (D y K); right; now left). rewrite Mx.
  destruct (Nat.eqb_spec k y) as [->|]; [now rewrite My | reflexivity].
Qed.
Lemma last_In (l : list nat) d : l <> [] -> In (last l d) l.
Proof. induction l as [|x r IH]; intros N; [contradiction|]. destruct r as [|y r]; [now left|]. right. apply IH. discriminate. Qed.
Definition stair_circ (c0 : nat) (l : list nat) : list gate := (cnots (stair_pairs l) ++ [gcZ c0 (last l 0)])%list.
(** conjugating a rotation by the staircase multiplies in the parity *)
Lemma stair_conj c0 l X U A b sg : l <> [] -> NoDup l -> NoDup X -> (forall k, In k X -> ~ In k l) -> In c0 X -> (forall I, A (sigma (stair_pairs l) I) = A I) -> (forall I, sg (sigma (stair_pairs l) I) = sg I) ->
  (forall psi I, circ_act U psi I = rotate A b c0 (flips X) sg psi I) ->
  forall psi I, circ_act (stair_circ c0 l ++ U ++ circuit_adjoint (stair_circ c0 l)) psi I = rotate A b c0 (flips X) (fun I => (GateEval.sgn (parity l I) * sg I)%C) psi I.
Proof.
  intros Ne Nl NX D Ic HA Hsg HU psi I. set (s := sigma (stair_pairs l)). set (z := last l 0). assert (Iz : In z l) by (apply last_In, Ne).
  assert (Nc : c0 <> z) by (intros ->; now apply (D z)). assert (Nc' : ~ In c0 l) by (apply D, Ic).
  set (d := fun J => GateEval.sgn (bit J z && bit J c0)).
  assert (Act : forall psi x, circ_act (stair_circ c0 l) psi (s x) = (d (s x) * psi x)%C).
  { intros p x. unfold stair_circ. rewrite circ_act_app. unfold circ_act at 1. cbn [fold_left]. fold z. rewrite cZ_act by exact Nc. unfold s. rewrite sigma_act by (apply stair_proper, Nl). reflexivity. }
  rewrite !circ_act_app. rewrite (adjoint_perm (stair_circ c0 l) d s); [| |intros J; unfold d, GateEval.sgn; destruct (_ && _); ring | apply sigma_surj, stair_proper, Nl | exact Act].
  2: { apply Forall_app. split; [apply cnots_lib, stair_proper, Nl | constructor; [eapply py_lib, py_cZ, Nc|constructor]]. }
  rewrite HU. unfold rotate. assert (HA' : A (s I) = A I) by apply HA. assert (Hs' : sg (s I) = sg I) by apply Hsg. assert (HF : flips X (s I) = s (flips X I)) by (symmetry; apply stair_flips; assumption). rewrite HA', Hs', HF, !Act.
  unfold d. unfold s. unfold z. rewrite !(stair_last l 0 Ne Nl). rewrite !(stair_off l _ c0 Nc'). rewrite (bit_flips X NX), (proj2 (mem_In c0 X) Ic).
  rewrite (parity_ext l (flips X I) I) by (intros k Ik; rewrite (bit_flips X NX); destruct (mem k X) eqn:E; [apply mem_In in E; exfalso; now apply (D k) | reflexivity]).
  destruct (A I); [|destruct (parity l I && bit I c0); cbn [GateEval.sgn]; ring].
  destruct (parity l I), (bit I c0); cbn [GateEval.sgn andb negb]; ring.
Qed.
