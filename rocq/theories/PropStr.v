(** C95: what the printed forms tell: gates, circuits, operators and states from their text. *)
From Coq Require Import Reals String Ascii List Arith NArith ZArith Bool Lia Lra DecimalString DecimalNat.
From Verif Require Import CBase Result Bits Spec SQSpec OpSpec GateModel ComputerModel LibProofs CircuitModel CompareProofs OperatorModel SQPoolModel PyModel PropPool IoModel PropIo StrModel.
Import ListNotations.
Local Open Scope string_scope.

(** ---- vocabulary ---- *)
(** what a gate says about where it acts and under which name *)
Definition gkey (g : gate) : string * nat * nat := (glabel g, gtarget g, gcontrol g).
(** the last k decimal digits of r *)
Fixpoint digits (k r : nat) : string := match k with O => "" | S k => dec ((r / 10 ^ k) mod 10) ++ digits k r end.
(** the contract of fmt::format("{:+f}", x): the sign, then |x| rounded to six decimals *)
Definition SixDecimals (fixed : R -> string) : Prop := forall x, exists n : nat,
  (Rabs (Rabs x * 10 ^ 6 - INR n) <= / 2)%R /\
  fixed x = (if Rltb x 0 then "-" else "+") ++ dec (n / 10 ^ 6) ++ "." ++ digits 6 n.
(** two amplitudes or coefficients that agree to six decimals *)
Definition Near (c d : C) : Prop := (Rabs (Re c - Re d) <= / 10 ^ 6)%R /\ (Rabs (Im c - Im d) <= / 10 ^ 6)%R.

(** ---- strings ---- *)
Definition stops (p : ascii -> bool) (s : string) : Prop := match s with EmptyString => True | String c _ => p c = false end.
Lemma strip p : forall a b r s, all_chars p a -> all_chars p b -> stops p r -> stops p s -> a ++ r = b ++ s -> a = b /\ r = s.
Proof.
  induction a as [|c a IH]; intros [|d b] r s Ha Hb Hr Hs E.
  - split; [reflexivity|exact E].
  - cbn in E. subst r. cbn in Hr. destruct Hb as (Hb & _). congruence.
  - cbn in E. subst s. cbn in Hs. destruct Ha as (Ha & _). congruence.
  - cbn in E. injection E as -> E. destruct (IH b r s (proj2 Ha) (proj2 Hb) Hr Hs E) as (-> & ->). split; reflexivity.
Qed.
Lemma chars_app p a b : all_chars p (a ++ b) <-> all_chars p a /\ all_chars p b.
Proof. induction a as [|c a IH]; [cbn; tauto|]. cbn. rewrite IH. tauto. Qed.
Lemma chars_sub p : forall s n m, all_chars p s -> all_chars p (substring n m s).
Proof.
  induction s as [|c s IH]; intros n m H; [destruct n, m; exact I|]. destruct H as (H1 & H2). destruct n as [|n]; [|exact (IH n m H2)]. destruct m as [|m]; [exact I|]. cbn. split; [exact H1|exact (IH 0 m H2)].
Qed.
Lemma dec_inj n m : dec n = dec m -> n = m.
Proof. intros E. pose proof (digits_dec n) as H. rewrite E, digits_dec in H. congruence. Qed.
Lemma dec_head n r : exists c s, dec n ++ r = String c s /\ digit c = true.
Proof. destruct (dec_digits n) as (H & N). destruct (dec n) as [|c s]; [contradiction|]. exists c, (s ++ r). split; [reflexivity|apply H]. Qed.
Lemma dec_strip n m r s : stops digit r -> stops digit s -> dec n ++ r = dec m ++ s -> n = m /\ r = s.
Proof. intros Hr Hs E. destruct (strip digit _ _ _ _ (proj1 (dec_digits n)) (proj1 (dec_digits m)) Hr Hs E) as (E1 & E2). split; [exact (dec_inj _ _ E1)|exact E2]. Qed.
Lemma app_last a b c : a ++ String c "" = b ++ String c "" -> a = b.
Proof.
  revert b. induction a as [|d a IH]; intros [|e b] E; [reflexivity| | |].
  - cbn in E. injection E as E1 E2. destruct b; discriminate.
  - cbn in E. injection E as E1 E2. destruct a; discriminate.
  - cbn in E. injection E as -> E. f_equal. exact (IH b E).
Qed.
Lemma app_front a r s : a ++ r = a ++ s -> r = s.
Proof. induction a as [|c a IH]; [trivial|]. cbn. intros E. injection E as E. exact (IH E). Qed.
(** join puts the separator between the strings *)
Lemma join_cons sep a b l : join sep (a :: b :: l) = a ++ sep ++ join sep (b :: l).
Proof. reflexivity. Qed.
Lemma join_text l sep : join_cc l sep = join sep l.
Proof.
  destruct l as [|a l]; [reflexivity|]. unfold join_cc. assert (G : forall l acc a, fold_left (fun ss s => ss ++ (s ++ sep)) (removelast (a :: l)) acc ++ last (a :: l) "" = acc ++ join sep (a :: l)).
  { clear. induction l as [|b l IH]; intros acc a; [reflexivity|]. change (removelast (a :: b :: l)) with (a :: removelast (b :: l)). change (last (a :: b :: l) "") with (last (b :: l) ""). cbn [fold_left]. rewrite IH, join_cons. now rewrite !append_assoc. }
  rewrite G. reflexivity.
Qed.
Lemma fold_app {A} (f : A -> string) l : forall acc, fold_left (fun s x => (s ++ [f x])%list) l acc = (acc ++ map f l)%list.
Proof. induction l as [|x l IH]; intros acc; cbn; [now rewrite app_nil_r|]. rewrite IH, <- app_assoc. reflexivity. Qed.
Lemma circuit_text gs : circuit_str gs = "[" ++ join " " (rev (map gate_str gs)) ++ "]".
Proof. unfold circuit_str. cbn zeta. rewrite fold_app, join_text. reflexivity. Qed.

(** ---- labels ---- *)
Definition lab (c : ascii) : bool := let n := nat_of_ascii c in (Nat.leb 65 n && Nat.leb n 90) || (Nat.leb 97 n && Nat.leb n 122) || Nat.eqb n 40 || Nat.eqb n 41.
Lemma make_label type t c x g : make_gate type t c x = Ok g ->
  glabel g = type /\ gtarget g = t /\ gcontrol g = c /\
  In type ["X"; "Y"; "Z"; "H"; "R"; "Rx"; "Ry"; "Rz"; "V"; "S"; "T"; "I"; "A"; "cX"; "CNOT"; "acX"; "aCNOT"; "cY"; "cZ"; "cR"; "cV"; "cRz"; "SWAP"] /\
  (forall y h, make_gate type t c y = Ok h -> gparam h = None -> h = g).
Proof.
  unfold make_gate. destruct (Nat.eqb t c);
  repeat match goal with |- context [String.eqb type ?l] => destruct (String.eqb_spec type l) as [->|]; [cbn [orb]; intros E; injection E as <-; cbn [glabel gtarget gcontrol];
    (split; [reflexivity|split; [reflexivity|split; [reflexivity|split; [cbn; tauto|]]]]); cbn [orb]; intros y h E; injection E as <-; cbn [gparam]; (reflexivity || discriminate)|cbn [orb]] end; discriminate.
Qed.
Lemma lab_label g : library_gate g -> all_chars lab (glabel g).
Proof.
  induction 1 as [type t c x g E|c U g HU IH Hn E|g Hg IH].
  - destruct (make_label _ _ _ _ _ E) as (-> & _ & _ & H & _). cbn in H. repeat (destruct H as [<-|H]; [cbn; repeat split|]). destruct H.
  - unfold make_control_gate in E. destruct (Nat.eqb (gtarget U) c); [discriminate|]. injection E as <-. cbn. repeat split.
  - unfold gate_adjoint. destruct (gparam g) as [(p, b)|]; [exact IH|]. destruct (self_adjoint (gmat g)); [exact IH|].
    assert (A : all_chars lab (adjoint_label (glabel g))) by (unfold adjoint_label; destruct (is_adj_label (glabel g)); [now apply chars_sub|apply chars_app; split; [cbn; repeat split|apply chars_app; split; [exact IH|cbn; repeat split]]]).
    destruct (gate_type g); exact A || (cbn; repeat split).
Qed.
Lemma lab_digit c : lab c = true -> digit c = false.
Proof. destruct c as [[|] [|] [|] [|] [|] [|] [|] [|]]; cbn; intros H; try discriminate; reflexivity. Qed.
Lemma digit_lab c : digit c = true -> lab c = false.
Proof. intros H. destruct (lab c) eqn:E; [|reflexivity]. apply lab_digit in E. congruence. Qed.

(** ---- gates ---- *)
Lemma gate_key g h : all_chars lab (glabel g) -> all_chars lab (glabel h) -> gate_str g = gate_str h -> gkey g = gkey h.
Proof.
  intros Hg Hh E. assert (F : forall g, exists r, gate_str g = glabel g ++ dec (gtarget g) ++ r /\ stops digit r /\ (r = "" /\ gtarget g = gcontrol g \/ r = "_" ++ dec (gcontrol g))).
  { intros k. unfold gate_str. destruct (Nat.eqb_spec (gtarget k) (gcontrol k)) as [Q|Q]; [exists ""; rewrite append_nil; repeat split; now left|exists ("_" ++ dec (gcontrol k)); repeat split; now right]. }
  destruct (F g) as (r & Er & Sr & Cr), (F h) as (s & Es & Ss & Cs). rewrite Er, Es in E.
  assert (ST : forall n u, stops lab (dec n ++ u)) by (intros n u; destruct (dec_head n u) as (c & w & -> & H); exact (digit_lab _ H)).
  destruct (strip lab _ _ _ _ Hg Hh (ST _ _) (ST _ _) E) as (E1 & E2). destruct (dec_strip _ _ _ _ Sr Ss E2) as (E3 & E4).
  unfold gkey. rewrite E1, E3. f_equal. destruct Cr as [(-> & Q) | ->], Cs as [(-> & Q') | ->]; try discriminate; [congruence|]. injection E4 as E4. exact (dec_inj _ _ E4).
Qed.
Lemma gate_of_key g h : gkey g = gkey h -> gate_str g = gate_str h.
Proof. unfold gkey, gate_str. intros E. injection E as -> -> ->. reflexivity. Qed.
(** the text of a gate is its label, its target and its control *)
Theorem C95_gate_partial : forall g h, library_gate g -> library_gate h -> (gate_str g = gate_str h <-> gkey g = gkey h).
Proof. intros g h Hg Hh. split; [apply gate_key; now apply lab_label|apply gate_of_key]. Qed.
Print Assumptions C95_gate_partial.

(** ---- circuits ---- *)
Definition wordc (c : ascii) : bool := lab c || digit c || Ascii.eqb "_" c.
Lemma gate_word g : all_chars lab (glabel g) -> all_chars wordc (gate_str g) /\ gate_str g <> "".
Proof.
  intros H. assert (D : forall n, all_chars wordc (dec n)) by (intros n; apply (all_impl digit); [intros c Hc; unfold wordc; rewrite Hc; now destruct (lab c)|apply dec_digits]).
  assert (L : all_chars wordc (glabel g)) by (apply (all_impl lab); [intros c Hc; unfold wordc; now rewrite Hc|exact H]).
  assert (N : forall n r, glabel g ++ dec n ++ r <> "") by (intros n r; destruct (dec_head n r) as (c & w & -> & _); destruct (glabel g); discriminate).
  unfold gate_str. destruct (Nat.eqb _ _); (split; [|first [apply N|rewrite <- (append_nil (dec _)); apply N]]); repeat (apply chars_app; split); try apply D; try exact L; cbn; repeat split.
Qed.
Lemma word_no c s : wordc c = false -> all_chars wordc s -> no_char c s.
Proof. intros Hc. apply all_impl. intros d Hd. destruct (Ascii.eqb_spec c d) as [->|]; [congruence|reflexivity]. Qed.
Lemma join_words c l1 l2 : Forall (no_char c) l1 -> Forall (no_char c) l2 -> Forall (fun s => s <> "") l1 -> Forall (fun s => s <> "") l2 ->
  join (String c "") l1 = join (String c "") l2 -> l1 = l2.
Proof.
  intros H1 H2 N1 N2 E. assert (NE : forall l, Forall (fun s => s <> "") l -> join (String c "") l = "" -> l = []).
  { intros [|a [|b l]] HN Q; [reflexivity|inversion HN; now subst|]. rewrite join_cons in Q. destruct a; discriminate. }
  destruct l1 as [|a l1]; [symmetry; apply NE; [exact N2|now rewrite <- E]|]. destruct l2 as [|b l2]; [apply NE; [exact N1|exact E]|].
  rewrite <- (split_join c (a :: l1)), <- (split_join c (b :: l2)), E; trivial; discriminate.
Qed.
Definition Labelled (g : gate) : Prop := all_chars lab (glabel g).
Lemma lib_labelled gs : Forall library_gate gs -> Forall Labelled gs.
Proof. intros H. eapply Forall_impl; [|exact H]. exact lab_label. Qed.
Lemma key_list : forall a b, Forall Labelled a -> Forall Labelled b -> map gate_str a = map gate_str b -> map gkey a = map gkey b.
Proof.
  intros a b Ha. revert b. induction Ha as [|g a Hg Ha IH]; intros [|h b] Hb E; try discriminate; [reflexivity|]. inversion Hb as [|h' b' Hh Hb']; subst. cbn [map] in *. injection E as E1 E2. rewrite (gate_key g h Hg Hh E1), (IH b Hb' E2). reflexivity.
Qed.
Lemma circuit_key a b : Forall Labelled a -> Forall Labelled b -> circuit_str a = circuit_str b -> map gkey a = map gkey b.
Proof.
  intros Ha Hb E. rewrite !circuit_text in E. apply app_front in E. apply app_last in E.
  assert (W : forall gs, Forall Labelled gs -> Forall (fun s => all_chars wordc s /\ s <> "") (rev (map gate_str gs))) by (intros gs Hgs; apply Forall_rev; rewrite Forall_map; eapply Forall_impl; [|exact Hgs]; intros g; apply gate_word).
  assert (K := join_words " " (rev (map gate_str a)) (rev (map gate_str b))). apply key_list; [assumption..|]. rewrite <- (rev_involutive (map gate_str a)), <- (rev_involutive (map gate_str b)). f_equal. apply K; try exact E.
  - eapply Forall_impl; [|exact (W a Ha)]. intros s (Hs & _). now apply word_no.
  - eapply Forall_impl; [|exact (W b Hb)]. intros s (Hs & _). now apply word_no.
  - eapply Forall_impl; [|exact (W a Ha)]. intros s (_ & Hs). exact Hs.
  - eapply Forall_impl; [|exact (W b Hb)]. intros s (_ & Hs). exact Hs.
Qed.
Lemma circuit_of_key a b : map gkey a = map gkey b -> circuit_str a = circuit_str b.
Proof.
  intros E. rewrite !circuit_text. f_equal. f_equal. f_equal. f_equal. revert b E. induction a as [|g a IH]; intros [|h b] E; try discriminate; [reflexivity|]. cbn [map] in *. inversion E as [[E1 E2 E3 E4]]. rewrite (IH b E4). f_equal. apply gate_of_key. unfold gkey. congruence.
Qed.
Theorem C95_circuit_partial : forall a b, Forall library_gate a -> Forall library_gate b -> (circuit_str a = circuit_str b <-> map gkey a = map gkey b).
Proof. intros a b Ha Hb. split; [apply circuit_key; now apply lib_labelled|apply circuit_of_key]. Qed.
Print Assumptions C95_circuit_partial.
(** the text lists the gates from the last to the first *)
Theorem C95_circuit_text : forall gs, circuit_str gs = "[" ++ join " " (rev (map gate_str gs)) ++ "]".
Proof. exact circuit_text. Qed.
Print Assumptions C95_circuit_text.
Theorem C95_gate_text : forall g, gate_str g = glabel g ++ dec (gtarget g) ++ (if Nat.eqb (gtarget g) (gcontrol g) then "" else "_" ++ dec (gcontrol g)).
Proof. intros g. unfold gate_str. destruct (Nat.eqb _ _); [now rewrite append_nil|reflexivity]. Qed.
Print Assumptions C95_gate_text.
(** a gate made by gate() without a parameter *)
Definition Plain (g : gate) : Prop := gparam g = None /\ exists type t c x, make_gate type t c x = Ok g.
Theorem C95_plain_circuit : forall a b, Forall Plain a -> Forall Plain b -> circuit_str a = circuit_str b -> a = b.
Proof.
  intros a b Ha Hb E. assert (L : forall gs, Forall Plain gs -> Forall library_gate gs) by (intros gs; apply Forall_impl; intros g (_ & type & t & c & x & Hg); exact (lib_make _ _ _ _ _ Hg)).
  apply (C95_circuit_partial a b (L a Ha) (L b Hb)) in E. revert b Hb E. clear L. induction Ha as [|g a Hg Ha IH]; intros [|h b] Hb E; try discriminate; [reflexivity|]. cbn [map] in E. inversion Hb as [|h' b' Hh Hb']; subst. injection E as E1 E2 E3 E4. f_equal; [|exact (IH b Hb' E4)].
  destruct Hg as (Pg & tg & t1 & c1 & x1 & Mg), Hh as (Ph & th & t2 & c2 & x2 & Mh). destruct (make_label _ _ _ _ _ Mg) as (L1 & L2 & L3 & _ & _), (make_label _ _ _ _ _ Mh) as (L4 & L5 & L6 & _ & U). subst. rewrite E1, E2, E3 in Mg. exact (U _ _ Mg Pg).
Qed.
Print Assumptions C95_plain_circuit.

(** ---- numbers ---- *)
Lemma dec_one d : d < 10 -> exists c, dec d = String c "".
Proof. intros H. do 10 (destruct d as [|d]; [eexists; reflexivity|]). lia. Qed.
Lemma digits_inj : forall k n m, digits k n = digits k m -> n mod 10 ^ k = m mod 10 ^ k.
Proof.
  induction k as [|k IH]; intros n m E; [reflexivity|]. cbn [digits] in E.
  assert (B : forall x, (x / 10 ^ k) mod 10 < 10) by (intros x; apply Nat.mod_upper_bound; discriminate).
  destruct (dec_one _ (B n)) as (c & Ec), (dec_one _ (B m)) as (d & Ed). rewrite Ec, Ed in E. cbn in E. injection E as E1 E2. subst d. rewrite <- Ed in Ec. apply dec_inj in Ec. apply IH in E2.
  rewrite Nat.pow_succ_r', (Nat.mul_comm 10). rewrite !Nat.mod_mul_r by (try discriminate; apply Nat.pow_nonzero; discriminate). rewrite Ec, E2. reflexivity.
Qed.
Lemma digits_digit k n : all_chars digit (digits k n).
Proof. induction k as [|k IH]; [exact I|]. cbn [digits]. apply chars_app. split; [apply dec_digits|exact IH]. Qed.
Definition numc (c : ascii) : bool := digit c || Ascii.eqb "+" c || Ascii.eqb "-" c || Ascii.eqb "." c.
Lemma fixed_chars fixed x : SixDecimals fixed -> all_chars numc (fixed x).
Proof.
  intros H. destruct (H x) as (n & _ & ->). assert (D : forall s, all_chars digit s -> all_chars numc s) by (intros s; apply all_impl; intros c Hc; unfold numc; now rewrite Hc).
  apply chars_app. split; [destruct (Rltb x 0); cbn; repeat split|]. apply chars_app. split; [apply D, dec_digits|]. apply chars_app. split; [cbn; repeat split|]. apply D, digits_digit.
Qed.
Lemma round_close (p x y k : R) : (0 < p)%R -> (Rabs (Rabs x * p - k) <= / 2)%R -> (Rabs (Rabs y * p - k) <= / 2)%R -> (Rabs (Rabs x - Rabs y) <= / p)%R.
Proof.
  intros Hp Hx Hy. assert (AB : forall z, (Rabs z <= / 2)%R -> (- / 2 <= z <= / 2)%R) by (intros z; unfold Rabs; destruct (Rcase_abs z); lra). apply AB in Hx, Hy. assert (B : (-1 <= (Rabs x - Rabs y) * p <= 1)%R) by lra. assert (I : (/ p * p = 1)%R) by (field; lra). assert (J : (0 < / p)%R) by now apply Rinv_0_lt_compat.
  apply Rabs_le. split.
  - apply Rmult_le_reg_r with p; [exact Hp|]. rewrite Ropp_mult_distr_l_reverse, I. lra.
  - apply Rmult_le_reg_r with p; [exact Hp|]. rewrite I. lra.
Qed.
Lemma fixed_close fixed x y : SixDecimals fixed -> fixed x = fixed y -> (Rabs (x - y) <= / 10 ^ 6)%R.
Proof.
  intros H E. destruct (H x) as (n & Hn & En), (H y) as (m & Hm & Em). rewrite En, Em in E. clear En Em H.
  assert (S : Rltb x 0 = Rltb y 0 /\ n = m).
  { assert (Q : Rltb x 0 = Rltb y 0 /\ dec (n / 10 ^ 6) ++ "." ++ digits 6 n = dec (m / 10 ^ 6) ++ "." ++ digits 6 m).
    { assert (NE : forall r s, "-" ++ r <> "+" ++ s) by (intros r s Q; discriminate Q). destruct (Rltb x 0), (Rltb y 0); [split; [reflexivity|exact (app_front _ _ _ E)]|destruct (NE _ _ E)|symmetry in E; destruct (NE _ _ E)|split; [reflexivity|exact (app_front _ _ _ E)]]. }
    destruct Q as (Q1 & Q2). split; [exact Q1|]. apply dec_strip in Q2; [|reflexivity|reflexivity]. destruct Q2 as (Q2 & Q3). assert (Q4 : digits 6 n = digits 6 m) by exact (app_front _ _ _ Q3).
    apply digits_inj in Q4. rewrite (Nat.div_mod n (10 ^ 6)), (Nat.div_mod m (10 ^ 6)) by (apply Nat.pow_nonzero; discriminate). rewrite Q2, Q4. reflexivity. }
  destruct S as (S & ->). pose proof (round_close (10 ^ 6) x y (INR m) ltac:(apply pow_lt; lra) Hn Hm) as C.
  destruct (Rltb_spec x 0), (Rltb_spec y 0); try discriminate.
  - rewrite (Rabs_left x), (Rabs_left y) in C by assumption. rewrite <- Rabs_Ropp. replace (- (x - y))%R with (- x - - y)%R by ring. exact C.
  - rewrite (Rabs_right x), (Rabs_right y) in C by lra. exact C.
Qed.
Definition tsc (c : ascii) : bool := numc c || Ascii.eqb " " c || Ascii.eqb "i" c || Ascii.eqb "j" c.
Lemma ts_chars fixed c : SixDecimals fixed -> all_chars tsc (to_string fixed c).
Proof.
  intros H. assert (D : forall x, all_chars tsc (fixed x)) by (intros x; eapply all_impl; [|exact (fixed_chars fixed x H)]; intros d Hd; unfold tsc; now rewrite Hd).
  unfold to_string. destruct (Req_EM_T _ _); [apply D|]. destruct (Req_EM_T _ _); repeat (apply chars_app; split); try apply D; cbn; repeat split.
Qed.
Lemma numc_end s t : all_chars numc s -> all_chars numc t -> forall c, numc c = false -> s <> t ++ String c "".
Proof. intros Hs Ht c Hc ->. apply chars_app in Hs. destruct Hs as (_ & Hs & _). congruence. Qed.
(** two complex numbers with the same text agree to six decimals *)
Lemma ts_close fixed c d : SixDecimals fixed -> to_string fixed c = to_string fixed d -> Near c d.
Proof.
  intros H E. pose proof (fun x => fixed_chars fixed x H) as F. pose proof (fun x y => fixed_close fixed x y H) as G. assert (Z : (Rabs (0 - 0) <= / 10 ^ 6)%R) by (rewrite Rminus_0_r, Rabs_R0; apply Rlt_le, Rinv_0_lt_compat, pow_lt; lra).
  assert (SP : forall a b r s, all_chars numc a -> all_chars numc b -> stops numc r -> stops numc s -> a ++ r = b ++ s -> a = b /\ r = s) by (intros a b r s; apply strip).
  unfold Near. unfold to_string in E. destruct (Req_EM_T (Im c) 0) as [Ic|Ic]; [|destruct (Req_EM_T (Re c) 0) as [Rc|Rc]]; (destruct (Req_EM_T (Im d) 0) as [Id|Id]; [|destruct (Req_EM_T (Re d) 0) as [Rd|Rd]]).
  - split; [exact (G _ _ E)|rewrite Ic, Id; exact Z].
  - exfalso. rewrite <- (append_nil (fixed (Re c))) in E. apply SP in E; try apply F; try reflexivity; try exact I. destruct E; discriminate.
  - exfalso. rewrite <- (append_nil (fixed (Re c))) in E. apply SP in E; try apply F; try reflexivity; try exact I. destruct E; discriminate.
  - exfalso. rewrite <- (append_nil (fixed (Re d))) in E. apply SP in E; try apply F; try reflexivity; try exact I. destruct E; discriminate.
  - apply app_last in E. split; [rewrite Rc, Rd; exact Z|exact (G _ _ E)].
  - exfalso. apply SP in E; try apply F; try reflexivity. destruct E; discriminate.
  - exfalso. rewrite <- (append_nil (fixed (Re d))) in E. apply SP in E; try apply F; try reflexivity; try exact I. destruct E; discriminate.
  - exfalso. apply SP in E; try apply F; try reflexivity. destruct E; discriminate.
  - apply SP in E; try apply F; try reflexivity. destruct E as (E1 & E2). apply app_front in E2. apply SP in E2; try apply F; try reflexivity. destruct E2 as (E2 & _). split; [exact (G _ _ E1)|exact (G _ _ E2)].
Qed.
Theorem C95_number : forall fixed c d, SixDecimals fixed -> to_string fixed c = to_string fixed d -> Near c d.
Proof. exact ts_close. Qed.
Print Assumptions C95_number.

(** ---- repr of a gate ---- *)
Definition entry_text (fixed : R -> string) (c : C) : string := "  " ++ fixed (Re c) ++ " " ++ fixed (Im c) ++ " i".
Definition side (g : gate) : list nat := if Nat.eqb (gtarget g) (gcontrol g) then [0; 1] else [0; 1; 2; 3].
(** the text of repr: label, qubits and the rows of the matrix, 2x2 or 4x4 *)
Theorem C95_repr_text : forall fixed g, gate_repr fixed g =
  glabel g ++ " gate, target qubit:" ++ dec (gtarget g) ++ ", contol qubit:" ++ dec (gcontrol g) ++ nl ++
  fold_right (fun i r => fold_right (fun j u => entry_text fixed (gmat g i j) ++ u) (nl ++ r) (side g)) "" (side g).
Proof.
  intros fixed g. unfold gate_repr, side, gnqubits. cbn zeta. set (h := glabel g ++ _).
  assert (F1 : forall i l s, fold_left (fun s j => s ++ ("  " ++ fixed (Re (gmat g i j)) ++ " " ++ fixed (Im (gmat g i j)) ++ " i")) l s = s ++ fold_right (fun j u => entry_text fixed (gmat g i j) ++ u) "" l).
  { intros i l. induction l as [|j l IH]; intros s; [symmetry; apply append_nil|]. cbn [fold_left fold_right]. rewrite IH, append_assoc. reflexivity. }
  assert (F2 : forall i l r, fold_right (fun j u => entry_text fixed (gmat g i j) ++ u) "" l ++ r = fold_right (fun j u => entry_text fixed (gmat g i j) ++ u) r l).
  { intros i l r. induction l as [|j l IH]; [reflexivity|]. cbn [fold_right]. rewrite append_assoc, IH. reflexivity. }
  assert (F3 : forall ix l s, fold_left (fun s i => fold_left (fun s j => s ++ ("  " ++ fixed (Re (gmat g i j)) ++ " " ++ fixed (Im (gmat g i j)) ++ " i")) ix s ++ nl) l s = s ++ fold_right (fun i r => fold_right (fun j u => entry_text fixed (gmat g i j) ++ u) (nl ++ r) ix) "" l).
  { intros ix l. induction l as [|i l IH]; intros s; [symmetry; apply append_nil|]. cbn [fold_left fold_right]. rewrite IH, F1, !append_assoc. f_equal. apply F2. }
  rewrite F3. unfold h. destruct (Nat.eqb (gtarget g) (gcontrol g)); cbn [Nat.eqb]; rewrite !append_assoc; reflexivity.
Qed.
Print Assumptions C95_repr_text.
(** repr determines label, target, control and the matrix to six decimals *)
Theorem C95_repr_partial : forall fixed g h, SixDecimals fixed -> library_gate g -> library_gate h -> gate_repr fixed g = gate_repr fixed h ->
  gkey g = gkey h /\ forall i j, In i (side g) -> In j (side g) -> Near (gmat g i j) (gmat h i j).
Proof.
  intros fixed g h H Lg Lh E. rewrite !C95_repr_text in E. apply (strip lab) in E; try (apply lab_label; assumption); try reflexivity. destruct E as (EL & E). apply app_front in E. apply dec_strip in E; [|reflexivity|reflexivity]. destruct E as (ET & E). apply app_front in E. apply dec_strip in E; [|reflexivity|reflexivity]. destruct E as (EC & E). apply app_front in E.
  split; [unfold gkey; congruence|]. assert (ES : side h = side g) by (unfold side; now rewrite ET, EC). rewrite ES in E. clear ES EL ET EC.
  assert (EN : forall c d r s, entry_text fixed c ++ r = entry_text fixed d ++ s -> Near c d /\ r = s).
  { intros c d r s Q. unfold entry_text in Q. rewrite !append_assoc in Q. apply app_front in Q. apply (strip numc) in Q; try apply fixed_chars; trivial; try reflexivity. destruct Q as (Q1 & Q). apply app_front in Q. apply (strip numc) in Q; try apply fixed_chars; trivial; try reflexivity. destruct Q as (Q2 & Q). apply app_front in Q. split; [split; apply (fixed_close fixed); assumption|exact Q]. }
  assert (ER : forall i l r s, fold_right (fun j u => entry_text fixed (gmat g i j) ++ u) r l = fold_right (fun j u => entry_text fixed (gmat h i j) ++ u) s l -> (forall j, In j l -> Near (gmat g i j) (gmat h i j)) /\ r = s).
  { intros i l. induction l as [|j l IH]; intros r s Q; [split; [intros j []|exact Q]|]. cbn [fold_right] in Q. apply EN in Q. destruct Q as (Q1 & Q2). apply IH in Q2. destruct Q2 as (Q2 & Q3). split; [|exact Q3]. intros k [<-|Hk]; [exact Q1|exact (Q2 k Hk)]. }
  assert (EM : forall l, fold_right (fun i r => fold_right (fun j u => entry_text fixed (gmat g i j) ++ u) (nl ++ r) (side g)) "" l = fold_right (fun i r => fold_right (fun j u => entry_text fixed (gmat h i j) ++ u) (nl ++ r) (side g)) "" l -> forall i j, In i l -> In j (side g) -> Near (gmat g i j) (gmat h i j)).
  { induction l as [|k l IH]; intros Q i j Hi Hj; [destruct Hi|]. cbn [fold_right] in Q. apply ER in Q. destruct Q as (Q1 & Q2). apply app_front in Q2. destruct Hi as [<-|Hi]; [exact (Q1 j Hj)|exact (IH Q2 i j Hi Hj)]. }
  exact (EM _ E).
Qed.
Print Assumptions C95_repr_partial.

(** ---- operators ---- *)
Definition LabelledOp (o : qop) : Prop := Forall (fun t => Forall library_gate (snd t)) o.
Lemma circuit_chars gs : Forall Labelled gs -> all_chars (fun c => wordc c || Ascii.eqb "[" c || Ascii.eqb "]" c || Ascii.eqb " " c) (circuit_str gs).
Proof.
  intros H. rewrite circuit_text. apply chars_app. split; [cbn; repeat split|]. apply chars_app. split; [|cbn; repeat split].
  assert (W : Forall (fun s => all_chars (fun c => wordc c || Ascii.eqb "[" c || Ascii.eqb "]" c || Ascii.eqb " " c) s) (rev (map gate_str gs))).
  { apply Forall_rev. rewrite Forall_map. eapply Forall_impl; [|exact H]. intros g Hg. eapply all_impl; [|exact (proj1 (gate_word g Hg))]. intros c Hc. now rewrite Hc. }
  induction W as [|a l Ha W IH]; [exact I|]. destruct l as [|b l]; [exact Ha|]. rewrite join_cons. apply chars_app. split; [exact Ha|]. apply chars_app. split; [cbn; repeat split|exact IH].
Qed.
Lemma term_no fixed t : SixDecimals fixed -> Forall library_gate (snd t) -> no_char newline (to_string fixed (fst t) ++ circuit_str (snd t)) /\ to_string fixed (fst t) ++ circuit_str (snd t) <> "".
Proof.
  intros H L. split.
  - apply chars_app. split; [eapply all_impl; [|exact (ts_chars fixed _ H)]|eapply all_impl; [|exact (circuit_chars _ (lib_labelled _ L))]]; intros c Hc; destruct (Ascii.eqb_spec newline c) as [<-|]; trivial; discriminate.
  - rewrite circuit_text. destruct (to_string fixed (fst t)); discriminate.
Qed.
(** one line for each term, in order *)
Theorem C95_operator_text : forall fixed o, qubit_operator_str fixed o = join nl (map (fun t => to_string fixed (fst t) ++ circuit_str (snd t)) o).
Proof. intros fixed o. unfold qubit_operator_str. rewrite fold_app, join_text. reflexivity. Qed.
Print Assumptions C95_operator_text.
(** the text of an operator: its coefficients to six decimals, and its circuits *)
Theorem C95_operator_partial : forall fixed o p, SixDecimals fixed -> LabelledOp o -> LabelledOp p ->
  qubit_operator_str fixed o = qubit_operator_str fixed p -> Forall2 (fun s t => Near (fst s) (fst t) /\ map gkey (snd s) = map gkey (snd t)) o p.
Proof.
  intros fixed o p H Lo Lp E. unfold qubit_operator_str in E. rewrite !fold_app, !join_text in E. cbn [app] in E. unfold nl in E.
  assert (N : forall o, LabelledOp o -> Forall (fun s => no_char newline s /\ s <> "") (map (fun t : C * list gate => to_string fixed (fst t) ++ circuit_str (snd t)) o)) by (intros q Lq; rewrite Forall_map; eapply Forall_impl; [|exact Lq]; intros t Ht; now apply term_no).
  pose proof (N o Lo) as No. pose proof (N p Lp) as Np. apply join_words in E; try (eapply Forall_impl; [|exact No]; intros s Hs; apply Hs); try (eapply Forall_impl; [|exact Np]; intros s Hs; apply Hs).
  clear N No Np. revert p Lp E. induction Lo as [|t o Ht Lo IH]; intros [|u p] Lp E; try discriminate; [constructor|]. inversion Lp as [|u' p' Hu Lp']; subst. cbn [map] in E. injection E as E1 E2. constructor; [|exact (IH p Lp' E2)].
  assert (ST : forall gs, stops tsc (circuit_str gs)) by (intros gs; rewrite circuit_text; reflexivity).
  apply (strip tsc _ _ _ _ (ts_chars fixed _ H) (ts_chars fixed _ H) (ST _) (ST _)) in E1. destruct E1 as (E1 & E3). split; [exact (ts_close _ _ _ H E1)|]. apply circuit_key; try (now apply lib_labelled). exact E3.
Qed.
Print Assumptions C95_operator_partial.

(** ---- second quantized operators ---- *)
Lemma join_each sep l a : join sep (a :: l) = a ++ fold_right (fun s r => sep ++ s ++ r) "" l.
Proof. revert a. induction l as [|b l IH]; intros a; [cbn; now rewrite append_nil|]. rewrite join_cons, IH. reflexivity. Qed.
Definition sp (l : list string) : string := fold_right (fun s r => " " ++ s ++ r) "" l.
Lemma sp_app a b : sp (a ++ b)%list = sp a ++ sp b.
Proof. induction a as [|s a IH]; [reflexivity|]. cbn [app sp fold_right]. unfold sp in *. rewrite IH, !append_assoc. reflexivity. Qed.
Definition hat (k : nat) : string := dec k ++ "^".
Definition term_toks (fixed : R -> string) (t : fterm) : list string :=
  (to_string fixed (fcoef t) :: "(" :: map hat (fcre t) ++ map dec (fann t) ++ [(")" ++ nl)%string])%list.
Lemma sq_text fixed o : sq_operator_str fixed o = fold_right (fun t r => sp (term_toks fixed t) ++ r) "" o.
Proof.
  unfold sq_operator_str. rewrite join_text.
  assert (G : forall o acc, fold_left (fun s t => (let s := (s ++ [to_string fixed (fst (fst t))])%list in let s := (s ++ ["("])%list in
    let s := fold_left (fun s k => (s ++ [(dec k ++ "^")%string])%list) (snd (fst t)) s in let s := fold_left (fun s k => (s ++ [dec k])%list) (snd t) s in (s ++ [(")" ++ nl)%string])%list)) o acc = (acc ++ flat_map (term_toks fixed) o)%list).
  { clear o. induction o as [|t o IH]; intros acc; [symmetry; apply app_nil_r|]. cbn [fold_left flat_map]. rewrite IH. cbn zeta. rewrite !fold_app. change (map (fun x : nat => (dec x ++ "^")%string)) with (map hat). change (term_toks fixed t) with ([to_string fixed (fst (fst t))] ++ ["("] ++ map hat (snd (fst t)) ++ map dec (snd t) ++ [(")" ++ nl)%string])%list. rewrite <- !app_assoc. reflexivity. }
  rewrite G. cbn [app]. rewrite join_each. transitivity (sp (flat_map (term_toks fixed) o)); [reflexivity|]. clear G. induction o as [|t o IH]; [reflexivity|]. cbn [flat_map fold_right]. rewrite sp_app, IH. reflexivity.
Qed.
Lemma sp_dec : forall cre ann cre' ann' r r', sp (map hat cre ++ map dec ann ++ [(")" ++ nl)%string])%list ++ r = sp (map hat cre' ++ map dec ann' ++ [(")" ++ nl)%string])%list ++ r' -> cre = cre' /\ ann = ann' /\ r = r'.
Proof.
  assert (A : forall ann ann' r r', sp (map dec ann ++ [(")" ++ nl)%string])%list ++ r = sp (map dec ann' ++ [(")" ++ nl)%string])%list ++ r' -> ann = ann' /\ r = r').
  { assert (HS : forall n u r, " " ++ dec n ++ u = " )" ++ r -> False) by (intros n u r E; destruct (dec_head n u) as (c & w & W & D); rewrite W in E; injection E as -> _; discriminate D).
    assert (ST : forall l r, stops digit (sp (map dec l ++ [(")" ++ nl)%string])%list ++ r)) by (intros [|k l] r; reflexivity).
    induction ann as [|k ann IH]; intros [|k' ann'] r r' E.
    - split; [reflexivity|]. apply (app_front (" )" ++ nl)). exact E.
    - exfalso. symmetry in E. cbn [map app sp fold_right] in E. rewrite !append_assoc in E. exact (HS _ _ _ E).
    - exfalso. cbn [map app sp fold_right] in E. rewrite !append_assoc in E. exact (HS _ _ _ E).
    - cbn [map app] in E. change (sp (dec k :: ?x)) with (" " ++ dec k ++ sp x) in E. change (sp (dec k' :: ?x)) with (" " ++ dec k' ++ sp x) in E. rewrite !append_assoc in E. apply app_front in E. apply dec_strip in E; [|apply ST|apply ST]. destruct E as (-> & E). apply IH in E. destruct E as (-> & ->). split; reflexivity. }
  assert (ST2 : forall l r, stops digit (sp (map dec l ++ [(")" ++ nl)%string])%list ++ r)) by (intros [|k l] r; reflexivity).
  assert (HC : forall k u ann r, " " ++ dec k ++ "^" ++ u = sp (map dec ann ++ [(")" ++ nl)%string])%list ++ r -> False).
  { intros k u [|j ann] r E.
    - cbn in E. injection E as E. destruct (dec_head k ("^" ++ u)) as (c & w & W & D). cbn in W. rewrite W in E. injection E as -> _. discriminate D.
    - cbn [map app] in E. change (sp (dec j :: ?x)) with (" " ++ dec j ++ sp x) in E. rewrite !append_assoc in E. apply app_front in E. apply dec_strip in E; [|reflexivity|apply ST2]. destruct E as (_ & E). destruct ann; discriminate E. }
  induction cre as [|k cre IH]; intros ann [|k' cre'] ann' r r' E.
  - cbn [map app] in E. apply A in E. destruct E as (-> & ->). repeat split.
  - exfalso. symmetry in E. cbn [map app] in E. change (sp (hat k' :: ?x)) with (" " ++ (dec k' ++ "^") ++ sp x) in E. rewrite !append_assoc in E. exact (HC _ _ _ _ E).
  - exfalso. cbn [map app] in E. change (sp (hat k :: ?x)) with (" " ++ (dec k ++ "^") ++ sp x) in E. rewrite !append_assoc in E. exact (HC _ _ _ _ E).
  - cbn [map app] in E. change (sp (hat k :: ?x)) with (" " ++ (dec k ++ "^") ++ sp x) in E. change (sp (hat k' :: ?x)) with (" " ++ (dec k' ++ "^") ++ sp x) in E. rewrite !append_assoc in E. apply app_front in E. apply dec_strip in E; [|reflexivity|reflexivity]. destruct E as (-> & E). apply (app_front "^") in E. apply IH in E. destruct E as (-> & -> & ->). repeat split.
Qed.
(** the text of each term: its coefficient, and its creators and annihilators in order *)
Theorem C95_sq_text : forall fixed o, sq_operator_str fixed o = fold_right (fun t r => " " ++ to_string fixed (fcoef t) ++ " (" ++ fold_right (fun k u => " " ++ dec k ++ "^" ++ u) (fold_right (fun k u => " " ++ dec k ++ u) (" )" ++ nl ++ r) (fann t)) (fcre t)) "" o.
Proof.
  intros fixed o. rewrite sq_text. induction o as [|t o IH]; [reflexivity|]. cbn [fold_right]. rewrite IH. set (r := fold_right _ "" o). unfold term_toks. change (sp (to_string fixed (fcoef t) :: ?x)) with (" " ++ to_string fixed (fcoef t) ++ sp x). change (sp ("(" :: ?x)) with (" (" ++ sp x). rewrite !append_assoc. f_equal. f_equal. f_equal.
  assert (A : forall l, sp (map dec l ++ [(")" ++ nl)%string])%list ++ r = fold_right (fun k u => " " ++ dec k ++ u) (" )" ++ nl ++ r) l) by (induction l as [|k l IHl]; [reflexivity|]; cbn [map app fold_right]; change (sp (dec k :: ?x)) with (" " ++ dec k ++ sp x); rewrite !append_assoc, IHl; reflexivity).
  induction (fcre t) as [|k l IHl]; [apply A|]. cbn [map app fold_right]. change (sp (hat k :: ?x)) with (" " ++ (dec k ++ "^") ++ sp x). rewrite !append_assoc, IHl. reflexivity.
Qed.
Print Assumptions C95_sq_text.
(** the text of a second quantized operator: its coefficients to six decimals, its creators and annihilators *)
Theorem C95_sq_operator : forall fixed o p, SixDecimals fixed -> sq_operator_str fixed o = sq_operator_str fixed p ->
  Forall2 (fun s t => Near (fcoef s) (fcoef t) /\ fcre s = fcre t /\ fann s = fann t) o p.
Proof.
  intros fixed o p H. rewrite !sq_text. revert p. induction o as [|t o IH]; intros [|u p] E; [constructor|discriminate E|discriminate E|].
  cbn [fold_right] in E. unfold term_toks in E. change (sp (to_string fixed (fcoef t) :: ?x)) with (" " ++ to_string fixed (fcoef t) ++ sp x) in E. change (sp (to_string fixed (fcoef u) :: ?x)) with (" " ++ to_string fixed (fcoef u) ++ sp x) in E.
  change (sp ("(" :: ?x)) with (" (" ++ sp x) in E. rewrite !append_assoc in E. apply app_front in E.
  assert (K : forall s s' r r', all_chars tsc s -> all_chars tsc s' -> s ++ " (" ++ r = s' ++ " (" ++ r' -> s = s' /\ r = r').
  { intros s s' r r' Hs Hs' Q. replace (" (" ++ r) with (" " ++ "(" ++ r) in Q by reflexivity. replace (" (" ++ r') with (" " ++ "(" ++ r') in Q by reflexivity. rewrite <- !(append_assoc _ " ") in Q. apply (strip tsc) in Q; try reflexivity; try (apply chars_app; split; [assumption|cbn; repeat split]). destruct Q as (Q1 & Q2). split; [exact (app_last _ _ _ Q1)|exact (app_front "(" _ _ Q2)]. }
  apply K in E; [|now apply ts_chars..]. destruct E as (E1 & E2). apply sp_dec in E2. destruct E2 as (E2 & E3 & E4). constructor; [split; [exact (ts_close _ _ _ H E1)|split; assumption]|exact (IH p E4)].
Qed.
Print Assumptions C95_sq_operator.

(** ---- pools of second quantized operators ---- *)
Definition pool_toks (fixed : R -> string) (i : nat) (t : C * list fterm) : list string :=
  ["----->"; dec i; ("<-----" ++ nl)%string; to_string fixed (fst t); ("[" ++ nl)%string; sq_operator_str fixed (snd t); ("]" ++ nl ++ nl)%string].
Fixpoint pool_body (fixed : R -> string) (i : nat) (l : list (C * list fterm)) : string :=
  match l with [] => "" | t :: r => " -----> " ++ dec i ++ " <-----" ++ nl ++ " " ++ to_string fixed (fst t) ++ " [" ++ nl ++ " " ++ sq_operator_str fixed (snd t) ++ " ]" ++ nl ++ nl ++ pool_body fixed (S i) r end.
(** the operators of a pool are numbered from 0 and printed in order *)
Theorem C95_pool_text : forall fixed l, sq_pool_str fixed l = pool_body fixed 0 l.
Proof.
  intros fixed l. unfold sq_pool_str. rewrite join_text.
  assert (G : forall l s i, fst (fold_left (fun st t => let s := fst st in let s := (s ++ ["----->"])%list in let s := (s ++ [dec (snd st)])%list in let s := (s ++ [("<-----" ++ nl)%string])%list in
    let s := (s ++ [to_string fixed (fst t)])%list in let s := (s ++ [("[" ++ nl)%string])%list in let s := (s ++ [sq_operator_str fixed (snd t)])%list in let s := (s ++ [("]" ++ nl ++ nl)%string])%list in (s, S (snd st))) l (s, i)) =
    (s ++ flat_map (fun p => pool_toks fixed (fst p) (snd p)) (combine (seq i (length l)) l))%list).
  { clear l. induction l as [|t l IH]; intros s i; [symmetry; apply app_nil_r|]. cbn [fold_left length seq combine flat_map fst snd]. cbn zeta. rewrite IH. unfold pool_toks at 2. rewrite <- !app_assoc. reflexivity. }
  rewrite G. cbn [app]. rewrite join_each. clear G. enough (K : forall l i, sp (flat_map (fun p => pool_toks fixed (fst p) (snd p)) (combine (seq i (length l)) l)) = pool_body fixed i l) by exact (K l 0).
  clear l. induction l as [|t l IH]; intros i; [reflexivity|]. cbn [length seq combine flat_map fst snd]. rewrite sp_app, IH. unfold pool_toks. cbn [pool_body]. unfold sp. cbn [fold_right]. rewrite !append_assoc. reflexivity.
Qed.
Print Assumptions C95_pool_text.
Lemma sq_no_bracket fixed o : SixDecimals fixed -> all_chars (fun c => negb (Ascii.eqb "]" c)) (sq_operator_str fixed o).
Proof.
  intros H. rewrite C95_sq_text. assert (TS : forall c, all_chars (fun c => negb (Ascii.eqb "]" c)) (to_string fixed c)) by (intros c; eapply all_impl; [|exact (ts_chars fixed c H)]; intros d Hd; destruct (Ascii.eqb_spec "]" d) as [<-|]; trivial; discriminate).
  assert (DD : forall n, all_chars (fun c => negb (Ascii.eqb "]" c)) (dec n)) by (intros n; eapply all_impl; [|exact (proj1 (dec_digits n))]; intros d Hd; destruct (Ascii.eqb_spec "]" d) as [<-|]; trivial; discriminate).
  induction o as [|t o IH]; [exact I|]. cbn [fold_right]. set (r := fold_right _ "" o) in *. apply chars_app. split; [cbn; repeat split|]. apply chars_app. split; [apply TS|]. apply chars_app. split; [cbn; repeat split|].
  induction (fcre t) as [|k l IHl]; cbn [fold_right]; [|apply chars_app; split; [cbn; repeat split|]; apply chars_app; split; [apply DD|]; apply chars_app; split; [cbn; repeat split|exact IHl]].
  induction (fann t) as [|k l IHl]; cbn [fold_right]; [|apply chars_app; split; [cbn; repeat split|]; apply chars_app; split; [apply DD|exact IHl]]. apply chars_app. split; [cbn; repeat split|]. apply chars_app. split; [cbn; repeat split|exact IH].
Qed.
(** two pools with the same text have the same operators in the same order, all coefficients to six decimals *)
Theorem C95_pool_partial : forall fixed l m, SixDecimals fixed -> sq_pool_str fixed l = sq_pool_str fixed m ->
  Forall2 (fun s t => Near (fst s) (fst t) /\ Forall2 (fun a b => Near (fcoef a) (fcoef b) /\ fcre a = fcre b /\ fann a = fann b) (snd s) (snd t)) l m.
Proof.
  intros fixed l m H. rewrite !C95_pool_text. generalize 0 at 1 2. revert m. induction l as [|t l IH]; intros [|u m] i E; [constructor|discriminate E|discriminate E|].
  cbn [pool_body] in E. apply app_front in E. apply app_front in E. apply app_front in E. apply app_front in E. apply app_front in E.
  assert (K : forall s s' r r', all_chars tsc s -> all_chars tsc s' -> s ++ " [" ++ r = s' ++ " [" ++ r' -> s = s' /\ r = r').
  { intros s s' r r' Hs Hs' Q. replace (" [" ++ r) with (" " ++ "[" ++ r) in Q by reflexivity. replace (" [" ++ r') with (" " ++ "[" ++ r') in Q by reflexivity. rewrite <- !(append_assoc _ " ") in Q. apply (strip tsc) in Q; try reflexivity; try (apply chars_app; split; [assumption|cbn; repeat split]). destruct Q as (Q1 & Q2). split; [exact (app_last _ _ _ Q1)|exact (app_front "[" _ _ Q2)]. }
  apply K in E; [|now apply ts_chars..]. destruct E as (E1 & E). apply app_front in E. apply app_front in E.
  assert (K2 : forall s s' r r', all_chars (fun c => negb (Ascii.eqb "]" c)) s -> all_chars (fun c => negb (Ascii.eqb "]" c)) s' -> s ++ " ]" ++ r = s' ++ " ]" ++ r' -> s = s' /\ r = r').
  { intros s s' r r' Hs Hs' Q. replace (" ]" ++ r) with (" " ++ "]" ++ r) in Q by reflexivity. replace (" ]" ++ r') with (" " ++ "]" ++ r') in Q by reflexivity. rewrite <- !(append_assoc _ " ") in Q. apply (strip (fun c => negb (Ascii.eqb "]" c))) in Q; try reflexivity; try (apply chars_app; split; [assumption|cbn; repeat split]). destruct Q as (Q1 & Q2). split; [exact (app_last _ _ _ Q1)|exact (app_front "]" _ _ Q2)]. }
  apply K2 in E; [|now apply sq_no_bracket..]. destruct E as (E2 & E). apply app_front in E. apply app_front in E.
  constructor; [split; [exact (ts_close _ _ _ H E1)|exact (C95_sq_operator fixed _ _ H E2)]|exact (IH m (S i) E)].
Qed.
Print Assumptions C95_pool_partial.

(** ---- pools of qubit operators ---- *)
Definition qpool_toks (fixed : R -> string) (i : nat) (t : C * qop) : list string :=
  ["----->"; dec i; ("<-----" ++ nl)%string; to_string fixed (fst t); ("[" ++ nl)%string; qubit_operator_str fixed (snd t); nl; ("]" ++ nl ++ nl)%string].
Fixpoint qpool_body (fixed : R -> string) (i : nat) (l : list (C * qop)) : string :=
  match l with [] => "" | t :: r => " -----> " ++ dec i ++ " <-----" ++ nl ++ " " ++ to_string fixed (fst t) ++ " [" ++ nl ++ " " ++ qubit_operator_str fixed (snd t) ++ " " ++ nl ++ " ]" ++ nl ++ nl ++ qpool_body fixed (S i) r end.
Theorem C95_qubit_pool_text : forall fixed l, qubit_pool_str fixed l = qpool_body fixed 0 l.
Proof.
  intros fixed l. unfold qubit_pool_str. rewrite join_text.
  assert (G : forall l s i, fst (fold_left (fun st t => let s := fst st in let s := (s ++ ["----->"])%list in let s := (s ++ [dec (snd st)])%list in let s := (s ++ [("<-----" ++ nl)%string])%list in
    let s := (s ++ [to_string fixed (fst t)])%list in let s := (s ++ [("[" ++ nl)%string])%list in let s := (s ++ [qubit_operator_str fixed (snd t)])%list in let s := (s ++ [nl])%list in let s := (s ++ [("]" ++ nl ++ nl)%string])%list in (s, S (snd st))) l (s, i)) =
    (s ++ flat_map (fun p => qpool_toks fixed (fst p) (snd p)) (combine (seq i (length l)) l))%list).
  { clear l. induction l as [|t l IH]; intros s i; [symmetry; apply app_nil_r|]. cbn [fold_left length seq combine flat_map fst snd]. cbn zeta. rewrite IH. unfold qpool_toks at 2. rewrite <- !app_assoc. reflexivity. }
  rewrite G. cbn [app]. rewrite join_each. clear G. enough (K : forall l i, sp (flat_map (fun p => qpool_toks fixed (fst p) (snd p)) (combine (seq i (length l)) l)) = qpool_body fixed i l) by exact (K l 0).
  clear l. induction l as [|t l IH]; intros i; [reflexivity|]. cbn [length seq combine flat_map fst snd]. rewrite sp_app, IH. unfold qpool_toks. cbn [qpool_body]. unfold sp. cbn [fold_right]. rewrite !append_assoc. reflexivity.
Qed.
Print Assumptions C95_qubit_pool_text.
Definition line_of (fixed : R -> string) (t : C * list gate) : string := to_string fixed (fst t) ++ circuit_str (snd t).
Lemma line_end fixed t : exists q, line_of fixed t = q ++ "]".
Proof. unfold line_of. rewrite circuit_text. eexists. rewrite <- !append_assoc. reflexivity. Qed.
Lemma end_not a b : a ++ "]" = b ++ " " -> False.
Proof.
  revert b. induction a as [|c a IH]; intros [|d b] E; [discriminate|destruct b; discriminate|destruct a; discriminate|]. cbn in E. injection E as _ E. exact (IH b E).
Qed.
Lemma nl_strip a b r s : no_char newline a -> no_char newline b -> a ++ nl ++ r = b ++ nl ++ s -> a = b /\ r = s.
Proof. intros Ha Hb E. apply (strip _ _ _ _ _ Ha Hb) in E; try reflexivity. destruct E as (E1 & E2). split; [exact E1|exact (app_front nl _ _ E2)]. Qed.
Lemma space_no a : no_char newline a -> no_char newline (a ++ " ").
Proof. intros H. apply chars_app. split; [exact H|cbn; repeat split]. Qed.
Lemma operator_front fixed o p r s : SixDecimals fixed -> LabelledOp o -> LabelledOp p ->
  qubit_operator_str fixed o ++ " " ++ nl ++ r = qubit_operator_str fixed p ++ " " ++ nl ++ s -> qubit_operator_str fixed o = qubit_operator_str fixed p /\ r = s.
Proof.
  intros H Lo. rewrite !C95_operator_text. fold (line_of fixed). revert p.
  assert (N : forall t : C * list gate, Forall library_gate (snd t) -> no_char newline (line_of fixed t)) by (intros t Ht; exact (proj1 (term_no fixed t H Ht))).
  assert (X : forall t u, line_of fixed t = line_of fixed u ++ " " -> False) by (intros t u Q; destruct (line_end fixed t) as (q & Hq); rewrite Hq in Q; exact (end_not _ _ Q)).
  assert (E0 : forall t l v w, Forall library_gate (snd t) -> join nl (map (line_of fixed) (t :: l)) ++ " " ++ nl ++ v = " " ++ nl ++ w -> False).
  { intros t l v w Ht Q. destruct l as [|t' l]; cbn [map] in Q.
    - change (join nl [line_of fixed t]) with (line_of fixed t) in Q. rewrite <- append_assoc in Q. apply nl_strip in Q; [|apply space_no, N, Ht|cbn; repeat split]. destruct Q as (Q & _). destruct (line_end fixed t) as (q & Hq). rewrite Hq in Q. destruct q as [|? [|? ?]]; discriminate.
    - rewrite join_cons, !append_assoc in Q. apply nl_strip in Q; [|apply N, Ht|cbn; repeat split]. destruct Q as (Q & _). destruct (line_end fixed t) as (q & Hq). rewrite Hq in Q. exact (end_not q "" Q). }
  induction Lo as [|t o Ht Lo IH]; intros p Lp E; destruct Lp as [|u p Hu Lp].
  - split; [reflexivity|]. exact (app_front nl _ _ (app_front " " _ _ E)).
  - exfalso. exact (E0 u p s r Hu (eq_sym E)).
  - exfalso. exact (E0 t o r s Ht E).
  - destruct o as [|t' o], p as [|u' p]; cbn [map] in E |- *.
    + change (join nl [line_of fixed t]) with (line_of fixed t) in *. change (join nl [line_of fixed u]) with (line_of fixed u) in *. rewrite <- !(append_assoc _ " ") in E. apply nl_strip in E; [|apply space_no, N, Ht|apply space_no, N, Hu]. destruct E as (E1 & E2). split; [exact (app_last _ _ _ E1)|exact E2].
    + exfalso. change (join nl [line_of fixed t]) with (line_of fixed t) in E. rewrite join_cons, !append_assoc in E. rewrite <- (append_assoc _ " ") in E. apply nl_strip in E; [|apply space_no, N, Ht|apply N, Hu]. destruct E as (E & _). exact (X u t (eq_sym E)).
    + exfalso. change (join nl [line_of fixed u]) with (line_of fixed u) in E. rewrite join_cons, !append_assoc in E. rewrite <- (append_assoc (line_of fixed u) " ") in E. apply nl_strip in E; [|apply N, Ht|apply space_no, N, Hu]. destruct E as (E & _). exact (X t u E).
    + rewrite !join_cons, !append_assoc in E. apply nl_strip in E; [|apply N, Ht|apply N, Hu]. destruct E as (E1 & E2). apply (IH (u' :: p) Lp) in E2. cbn [map] in E2. destruct E2 as (E2 & E3). split; [|exact E3]. rewrite !join_cons, E1, E2. reflexivity.
Qed.
(** two pools of qubit operators with the same text: the same circuits, all coefficients to six decimals *)
Theorem C95_qubit_pool_partial : forall fixed l m, SixDecimals fixed -> Forall (fun t => LabelledOp (snd t)) l -> Forall (fun t => LabelledOp (snd t)) m ->
  qubit_pool_str fixed l = qubit_pool_str fixed m ->
  Forall2 (fun s t => Near (fst s) (fst t) /\ Forall2 (fun a b => Near (fst a) (fst b) /\ map gkey (snd a) = map gkey (snd b)) (snd s) (snd t)) l m.
Proof.
  intros fixed l m H Ll. rewrite !C95_qubit_pool_text. generalize 0 at 1 2. revert m. induction Ll as [|t l Ht Ll IH]; intros m i Lm E; destruct Lm as [|u m Hu Lm]; [constructor|discriminate E|discriminate E|].
  cbn [qpool_body] in E. apply app_front in E. apply app_front in E. apply app_front in E. apply app_front in E. apply app_front in E.
  assert (K : forall s s' r r', all_chars tsc s -> all_chars tsc s' -> s ++ " [" ++ r = s' ++ " [" ++ r' -> s = s' /\ r = r').
  { intros s s' r r' Hs Hs' Q. replace (" [" ++ r) with (" " ++ "[" ++ r) in Q by reflexivity. replace (" [" ++ r') with (" " ++ "[" ++ r') in Q by reflexivity. rewrite <- !(append_assoc _ " ") in Q. apply (strip tsc) in Q; try reflexivity; try (apply chars_app; split; [assumption|cbn; repeat split]). destruct Q as (Q1 & Q2). split; [exact (app_last _ _ _ Q1)|exact (app_front "[" _ _ Q2)]. }
  apply K in E; [|now apply ts_chars..]. destruct E as (E1 & E). apply app_front in E. apply app_front in E.
  apply operator_front in E; try assumption. destruct E as (E2 & E). apply app_front in E. apply app_front in E. apply app_front in E.
  constructor; [split; [exact (ts_close _ _ _ H E1)|exact (C95_operator_partial fixed _ _ H Ht Hu E2)]|exact (IH m (S i) Lm E)].
Qed.
Print Assumptions C95_qubit_pool_partial.

(** ---- states ---- *)
Lemma bits_text l : fold_left (fun s b => s ++ (if (b : bool) then "1" else "0")) l "" = fold_right (fun (b : bool) r => (if b then "1" else "0") ++ r) "" l.
Proof.
  enough (G : forall l acc, fold_left (fun s b => s ++ (if (b : bool) then "1" else "0")) l acc = acc ++ fold_right (fun (b : bool) r => (if b then "1" else "0") ++ r) "" l) by apply (G l "").
  clear l. induction l as [|b l IH]; intros acc; [symmetry; apply append_nil|]. cbn [fold_left fold_right]. rewrite IH, append_assoc. reflexivity.
Qed.
(** the text |b0 b1 ...> of a basis state *)
Definition ket_text (n i : nat) : string := "|" ++ fold_right (fun (b : bool) r => (if b then "1" else "0") ++ r) "" (map (bit i) (seq 0 n)) ++ ">".
Lemma basis_text n i : (n <= 64)%nat -> (i < 2 ^ n)%nat -> basis_str (N.of_nat i) n = Ok (ket_text n i).
Proof.
  intros Hn Hi. unfold basis_str. assert (B : (N.of_nat i < 2 ^ 64)%N).
  { assert (Q : (N.of_nat i < N.of_nat (2 ^ n))%N) by lia. rewrite Nat2N.inj_pow in Q. eapply N.lt_le_trans; [exact Q|]. apply N.pow_le_mono_r; lia. }
  rewrite PropPool.C36_str by (exact B || lia). cbn [bind]. rewrite bits_text, Nat2N.id. reflexivity.
Qed.
Lemma ket_inj n i j : (i < 2 ^ n)%nat -> (j < 2 ^ n)%nat -> ket_text n i = ket_text n j -> i = j.
Proof.
  intros Hi Hj E. unfold ket_text in E. apply app_front in E. apply app_last in E.
  assert (G : forall l1 l2 : list bool, fold_right (fun (b : bool) r => (if b then "1" else "0") ++ r) "" l1 = fold_right (fun (b : bool) r => (if b then "1" else "0") ++ r) "" l2 -> l1 = l2).
  { induction l1 as [|a l1 IH]; intros [|b l2] Q; try reflexivity; try (destruct b; discriminate Q); try (destruct a; discriminate Q). destruct a, b; try discriminate Q; cbn in Q; injection Q as Q; f_equal; exact (IH _ Q). }
  apply G in E. apply bits_ext. intros q. destruct (Nat.lt_ge_cases q n) as [L|L].
  - assert (K := f_equal (fun l => nth q l false) E). cbn beta in K. assert (N : forall x, nth q (map (bit x) (seq 0 n)) false = bit x q) by (intros x; rewrite (nth_indep _ false (bit x 0)) by (rewrite map_length, seq_length; exact L); rewrite map_nth, seq_nth by exact L; reflexivity). rewrite !N in K. exact K.
  - rewrite (proj1 (lt_pow2_bits n i) Hi q L), (proj1 (lt_pow2_bits n j) Hj q L). reflexivity.
Qed.

(** the basis states that a state with amplitudes v shows *)
Definition Shown (T : R) (v : nat -> C) (i : nat) : Prop := (T <= Cabs (v i))%R.
Definition line (fixed : R -> string) (n : nat) (v : nat -> C) (i : nat) : string := to_string fixed (v i) ++ " " ++ ket_text n i.
Definition shown_list (T : R) (v : nat -> C) (l : list nat) : list nat := filter (fun i => negb (Rltb (Cabs (v i)) T)) l.
Lemma shown_in T v l i : In i (shown_list T v l) <-> In i l /\ Shown T v i.
Proof. unfold shown_list, Shown. rewrite filter_In. destruct (Rltb_spec (Cabs (v i)) T); cbn [negb]; (split; [intros (H & K)|intros (H & K)]; split; trivial; try discriminate; lra). Qed.
Lemma computer_text fixed T q : wf_computer q -> (nqubit q <= 64)%nat ->
  computer_str fixed T q = Ok (join nl ("Computer(" :: map (line fixed (nqubit q) (fun i => nth i (coeff q) C0)) (shown_list T (fun i => nth i (coeff q) C0) (seq 0 (nbasis q))) ++ [")"])%list).
Proof.
  intros (HW & _) Hn. unfold computer_str. set (v := fun i => nth i (coeff q) C0).
  enough (G : forall l acc, (forall i, In i l -> (i < nbasis q)%nat) -> foreach l (fun i terms => do c <- vget (coeff q) i; if negb (Rltb (Cabs c) T) then do b <- basis_str (N.of_nat i) (nqubit q); Ok (terms ++ [(to_string fixed c ++ " " ++ b)%string])%list else Ok terms) acc = Ok (acc ++ map (line fixed (nqubit q) v) (shown_list T v l))%list).
  { rewrite G by (intros i Hi; apply in_seq in Hi; lia). cbn [bind]. rewrite join_text. reflexivity. }
  induction l as [|i l IH]; intros acc Hl; [cbn; now rewrite app_nil_r|]. cbn [foreach]. assert (Hi : (i < nbasis q)%nat) by (apply Hl; now left).
  assert (EG : vget (coeff q) i = Ok (v i)) by (unfold vget, v; rewrite (nth_error_nth' _ C0) by lia; reflexivity). rewrite EG. cbn [bind]. unfold shown_list. cbn [filter]. destruct (Rltb (Cabs (v i)) T); cbn [negb bind].
  - apply IH. intros j Hj. apply Hl. now right.
  - rewrite basis_text by (exact Hn || exact Hi). cbn [bind]. rewrite IH by (intros j Hj; apply Hl; now right). cbn [map]. rewrite <- app_assoc. reflexivity.
Qed.
(** the text of a state: one line for each basis state at or above the threshold, in increasing order *)
Theorem C95_state_text : forall fixed T q, wf_computer q -> (nqubit q <= 64)%nat ->
  computer_str fixed T q = Ok ("Computer(" ++ nl ++ fold_right (fun i r => to_string fixed (nth i (coeff q) C0) ++ " " ++ ket_text (nqubit q) i ++ nl ++ r) ")" (filter (fun i => negb (Rltb (Cabs (nth i (coeff q) C0)) T)) (seq 0 (2 ^ nqubit q)))).
Proof.
  intros fixed T q W Hn. rewrite computer_text by assumption. f_equal. unfold shown_list, nbasis. generalize (filter (fun i => negb (Rltb (Cabs (nth i (coeff q) C0)) T)) (seq 0 (2 ^ nqubit q))). intros l.
  assert (J : forall a l, join nl (a :: l ++ [")"])%list = a ++ nl ++ fold_right (fun x r => x ++ nl ++ r) ")" l) by (intros a l'; revert a; induction l' as [|b l' IH]; intros a; [reflexivity|]; cbn [app]; rewrite join_cons; cbn [app] in IH; rewrite IH; reflexivity).
  cbn [app]. rewrite J. f_equal. f_equal. clear J. induction l as [|i l IH]; [reflexivity|]. cbn [map fold_right]. rewrite IH. unfold line. rewrite !append_assoc. reflexivity.
Qed.
Print Assumptions C95_state_text.
Lemma ket_chars n i : all_chars (fun c => negb (Ascii.eqb newline c)) (ket_text n i).
Proof. unfold ket_text. apply chars_app. split; [cbn; repeat split|]. apply chars_app. split; [|cbn; repeat split]. induction (map (bit i) (seq 0 n)) as [|b l IH]; [exact I|]. cbn [fold_right]. apply chars_app. split; [destruct b; cbn; repeat split|exact IH]. Qed.
Lemma line_no fixed n v i : SixDecimals fixed -> no_char newline (line fixed n v i).
Proof.
  intros H. unfold line. apply chars_app. split; [|apply chars_app; split; [cbn; repeat split|exact (ket_chars n i)]]. eapply all_impl; [|exact (ts_chars fixed (v i) H)]. intros c Hc. destruct (Ascii.eqb_spec newline c) as [<-|]; trivial; discriminate.
Qed.
Lemma line_inj fixed n v w i j : SixDecimals fixed -> (i < 2 ^ n)%nat -> (j < 2 ^ n)%nat -> line fixed n v i = line fixed n w j -> i = j /\ Near (v i) (w j).
Proof.
  intros H Hi Hj E. unfold line in E. rewrite <- !append_assoc in E. apply (strip tsc) in E; try reflexivity; try (apply chars_app; split; [now apply ts_chars|cbn; repeat split]).
  destruct E as (E1 & E2). split; [exact (ket_inj n i j Hi Hj E2)|]. exact (ts_close _ _ _ H (app_last _ _ _ E1)).
Qed.
(** two states on the same qubits with the same text show the same basis states, with amplitudes that agree to six decimals *)
Theorem C95_state_partial : forall fixed T p q s, SixDecimals fixed -> wf_computer p -> wf_computer q -> nqubit p = nqubit q -> (nqubit p <= 64)%nat ->
  computer_str fixed T p = Ok s -> computer_str fixed T q = Ok s ->
  forall i, (i < nbasis p)%nat -> (T <= Cabs (nth i (coeff p) C0) <-> T <= Cabs (nth i (coeff q) C0))%R /\ ((T <= Cabs (nth i (coeff p) C0))%R -> Near (nth i (coeff p) C0) (nth i (coeff q) C0)).
Proof.
  intros fixed T p q s H Wp Wq EN Hn Ep Eq. rewrite computer_text in Ep by assumption. rewrite computer_text in Eq by (assumption || lia). assert (E : Ok (join nl ("Computer(" :: map (line fixed (nqubit p) (fun i => nth i (coeff p) C0)) (shown_list T (fun i => nth i (coeff p) C0) (seq 0 (nbasis p))) ++ [")"])%list) = Ok (join nl ("Computer(" :: map (line fixed (nqubit q) (fun i => nth i (coeff q) C0)) (shown_list T (fun i => nth i (coeff q) C0) (seq 0 (nbasis q))) ++ [")"])%list)) by congruence.
  clear Ep Eq. assert (OI : forall a b : string, Ok a = Ok b -> a = b) by congruence. apply OI in E. clear OI. unfold nbasis in E. rewrite <- EN in E. unfold nbasis. set (n := nqubit p) in *. set (v := fun i => nth i (coeff p) C0) in *. set (w := fun i => nth i (coeff q) C0) in *.
  assert (NC : forall u l, Forall (no_char newline) ("Computer(" :: map (line fixed n u) l ++ [")"])%list) by (intros u l; constructor; [cbn; repeat split|]; apply Forall_app; split; [rewrite Forall_map; apply Forall_forall; intros i _; now apply line_no|repeat constructor; cbn; repeat split]).
  assert (E' : ("Computer(" :: map (line fixed n v) (shown_list T v (seq 0 (2 ^ n))) ++ [")"])%list = ("Computer(" :: map (line fixed n w) (shown_list T w (seq 0 (2 ^ n))) ++ [")"])%list).
  { apply (f_equal (split_at newline)) in E. unfold nl in E. rewrite !split_join in E by (discriminate || apply NC). exact E. }
  assert (E2 : map (line fixed n v) (shown_list T v (seq 0 (2 ^ n))) = map (line fixed n w) (shown_list T w (seq 0 (2 ^ n)))) by (apply (app_inv_tail [")"]); assert (TL : forall (a : string) x y, a :: x = a :: y -> x = y) by congruence; exact (TL _ _ _ E')).
  assert (BD : forall u i, In i (shown_list T u (seq 0 (2 ^ n))) -> (i < 2 ^ n)%nat) by (intros u i Hi; apply shown_in in Hi; destruct Hi as (Hi & _); apply in_seq in Hi; lia).
  assert (GO : forall a b i, Shown T a i -> (i < 2 ^ n)%nat -> map (line fixed n a) (shown_list T a (seq 0 (2 ^ n))) = map (line fixed n b) (shown_list T b (seq 0 (2 ^ n))) -> Shown T b i /\ Near (a i) (b i)).
  { intros a b i Hs Hi Q. assert (IN : In (line fixed n a i) (map (line fixed n b) (shown_list T b (seq 0 (2 ^ n))))) by (rewrite <- Q; apply in_map; apply shown_in; split; [apply in_seq; lia|exact Hs]).
    apply in_map_iff in IN. destruct IN as (j & Ej & Hj). destruct (line_inj fixed n b a j i H (BD _ _ Hj) Hi Ej) as (-> & HN). apply shown_in in Hj. split; [apply Hj|]. destruct HN as (N1 & N2). split; rewrite Rabs_minus_sym; assumption. }
  intros i Hi. split.
  - split; intros Hs; [exact (proj1 (GO v w i Hs Hi E2))|exact (proj1 (GO w v i Hs Hi (eq_sym E2)))].
  - intros Hs. exact (proj2 (GO v w i Hs Hi E2)).
Qed.
Print Assumptions C95_state_partial.

(** ---- what is not shown ---- *)
(** the parameter of a gate and the matrix of a controlled gate are not printed *)
Theorem C95_gate_parameter_refuted : exists g h, library_gate g /\ library_gate h /\ gate_str g = gate_str h /\ gparam g <> gparam h.
Proof.
  assert (E1 := make_rzg 0 ltac:(lra)). assert (E2 := make_rzg 1 ltac:(lra)). exists (rzg 0), (rzg 1). split; [exact (lib_make _ _ _ _ _ E1)|]. split; [exact (lib_make _ _ _ _ _ E2)|]. split; [reflexivity|]. cbn. intros Q. injection Q as Q. lra.
Qed.
Print Assumptions C95_gate_parameter_refuted.
Theorem C95_controlled_gate_refuted : exists g h, library_gate g /\ library_gate h /\ gate_str g = gate_str h /\ gparam g = None /\ gparam h = None /\ gmat g 3%nat 3%nat <> gmat h 3%nat 3%nat.
Proof.
  assert (X : library_gate (mkGate "X" 0 0 m_X None)) by (eapply (lib_make "X" 0 0 0); reflexivity). assert (Z : library_gate (mkGate "Z" 0 0 m_Z None)) by (eapply (lib_make "Z" 0 0 0); reflexivity).
  eexists. eexists. split; [eapply lib_control; [exact X|reflexivity|apply (eq_refl (Ok _) : make_control_gate 1 (mkGate "X" 0 0 m_X None) = Ok _)]|]. split; [eapply lib_control; [exact Z|reflexivity|apply (eq_refl (Ok _) : make_control_gate 1 (mkGate "Z" 0 0 m_Z None) = Ok _)]|].
  split; [reflexivity|]. split; [reflexivity|]. split; [reflexivity|]. cbn. intros Q. apply (f_equal Re) in Q. cbn in Q. lra.
Qed.
Print Assumptions C95_controlled_gate_refuted.
(** amplitudes below the threshold are not printed *)
Theorem C95_small_amplitude_refuted : exists p q, wf_computer p /\ wf_computer q /\ nqubit p = nqubit q /\ (forall fixed, exists s, computer_str fixed (/ 10 ^ 6) p = Ok s /\ computer_str fixed (/ 10 ^ 6) q = Ok s) /\ nth 1 (coeff p) C0 <> nth 1 (coeff q) C0.
Proof.
  set (e := (/ 10 ^ 7)%R). assert (He : (0 < e < / 10 ^ 6)%R) by (unfold e; split; [apply Rinv_0_lt_compat; lra|apply Rinv_lt_contravar; lra]).
  exists (mkComputer 1 [C1; C0] (zeros 2) 0 0), (mkComputer 1 [C1; RtoC e] (zeros 2) 0 0). split; [split; reflexivity|]. split; [split; reflexivity|]. split; [reflexivity|]. split.
  - intros fixed. eexists. rewrite !computer_text by (try (split; reflexivity); cbn; lia). split; [reflexivity|]. f_equal. unfold shown_list, nbasis. cbn [nqubit coeff Nat.pow Nat.mul Nat.add seq filter nth].
    assert (A : Cabs (RtoC e) = e) by (unfold Cabs, Cnorm2, RtoC; cbn; replace (e * e + 0 * 0)%R with (e * e)%R by ring; apply sqrt_square; lra). rewrite A, Cabs_C0, Cabs_C1.
    destruct (Rltb_spec e (/ 10 ^ 6)) as [_|Q]; [|lra]. destruct (Rltb_spec 0 (/ 10 ^ 6)) as [_|Q]; [|lra]. destruct (Rltb_spec 1 (/ 10 ^ 6)) as [Q|_]; [exfalso; assert (/ 10 ^ 6 < / 1)%R by (apply Rinv_lt_contravar; lra); lra|]. reflexivity.
  - cbn. intros Q. apply (f_equal Re) in Q. cbn in Q. lra.
Qed.
Print Assumptions C95_small_amplitude_refuted.
(** the text of a circuit is never accepted by build_circuit *)
Lemma strange_gate l t c x g : make_gate (String "[" l) t c x <> Ok g.
Proof. intros E. destruct (make_label _ _ _ _ _ E) as (_ & _ & _ & H & _). cbn in H. repeat (destruct H as [H|H]; [discriminate H|]). exact H. Qed.
Lemma strange_word flt w g : parse_gate flt (String "[" w) <> Ok g.
Proof.
  assert (P2 : forall l t c h, gate2z (String "[" l) t c <> Ok h).
  { intros l t c h. unfold gate2z. destruct (to_size t); [|discriminate]. cbn [bind]. destruct (to_size c); [|discriminate]. cbn [bind]. unfold py_gate2. repeat match goal with |- context [if ?b then _ else _] => destruct b end; try apply strange_gate; discriminate. }
  assert (P3 : forall l t c x h, gate3z (String "[" l) t c x <> Ok h).
  { intros l t c x h. unfold gate3z. destruct (to_size t); [|discriminate]. cbn [bind]. destruct (to_size c); [|discriminate]. cbn [bind]. unfold py_gate3. repeat match goal with |- context [if ?b then _ else _] => destruct b end; try apply strange_gate; discriminate. }
  unfold parse_gate, split_at. cbn [pieces]. destruct (Ascii.eqb "_" "[") eqn:Q; [discriminate|]. cbn [fst snd item nth_error bind].
  set (l := fst (pieces (Ascii.eqb "_") w)). set (r := snd (pieces (Ascii.eqb "_") w)). destruct (Nat.eqb (length (String "[" l :: r)) 2).
  - destruct (item (String "[" l :: r) 1); [|discriminate]. cbn [bind]. destruct (int_of _); [|discriminate]. cbn [bind]. apply P2.
  - destruct (has_char "R" (String "[" l)).
    + destruct (item (String "[" l :: r) 1); [|discriminate]. cbn [bind]. destruct (int_of _); [|discriminate]. cbn [bind]. destruct (item (String "[" l :: r) 2); [|discriminate]. cbn [bind]. destruct (flt _); [apply P3|discriminate].
    + destruct (item (String "[" l :: r) 1); [|discriminate]. cbn [bind]. destruct (int_of _); [|discriminate]. cbn [bind]. destruct (item (String "[" l :: r) 2); [|discriminate]. cbn [bind]. destruct (int_of _); [|discriminate]. cbn [bind]. apply P2.
Qed.
Theorem C95_roundtrip_refuted : forall flt gs rs, build_circuit flt (circuit_str gs) <> Ok rs.
Proof.
  intros flt gs rs. rewrite circuit_text. change ("[" ++ ?x) with (String "[" x). generalize (join " " (rev (map gate_str gs)) ++ "]"). intros s. unfold build_circuit, split_space. cbn [pieces]. destruct (is_space "[") eqn:Q; [discriminate|]. cbn [fst snd filter String.eqb negb foreach].
  destruct (parse_gate flt (String "[" (fst (pieces is_space s)))) eqn:E; [exfalso; exact (strange_word _ _ _ E)|]. cbn [bind]. discriminate.
Qed.
Print Assumptions C95_roundtrip_refuted.

(** ---- the hypotheses can be met ---- *)
Lemma six_decimals_exist : exists fixed, SixDecimals fixed.
Proof.
  exists (fun x => let n := Z.to_nat (up (Rabs x * 10 ^ 6 - / 2)) in (if Rltb x 0 then "-" else "+") ++ dec (n / 10 ^ 6) ++ "." ++ digits 6 n).
  intros x. exists (Z.to_nat (up (Rabs x * 10 ^ 6 - / 2))). split; [|reflexivity]. set (y := (Rabs x * 10 ^ 6)%R). assert (Hy : (0 <= y)%R) by (apply Rmult_le_pos; [apply Rabs_pos|apply pow_le; lra]).
  destruct (archimed (y - / 2)) as (A1 & A2). assert (HU : (0 <= up (y - / 2))%Z) by (assert (-1 < up (y - / 2))%Z by (apply lt_IZR; lra); lia).
  rewrite INR_IZR_INZ, Z2Nat.id by exact HU. apply Rabs_le. lra.
Qed.
Example C95_texts : exists cx h, make_gate "cX" 1 0 0 = Ok cx /\ make_gate "H" 0 0 0 = Ok h /\ Forall Plain [h; cx] /\ gate_str cx = "cX1_0" /\ circuit_str [h; cx] = "[cX1_0 H0]" /\ circuit_str [] = "[]".
Proof.
  eexists. eexists. split; [reflexivity|]. split; [reflexivity|]. split; [repeat constructor; [exists "H", 0%nat, 0%nat, 0%R; reflexivity|exists "cX", 1%nat, 0%nat, 0%R; reflexivity]|]. repeat split.
Qed.
Example C95_nonvacuous : exists fixed, SixDecimals fixed /\ exists cx, make_gate "cX" 1 0 0 = Ok cx /\ LabelledOp [(mkC (1 / 2) 0, [cx])] /\
  qubit_operator_str fixed [(mkC (1 / 2) 0, [cx])] = fixed (1 / 2)%R ++ "[cX1_0]" /\
  sq_operator_str fixed [((mkC 1 0, [2]), [0; 1])] = " " ++ fixed 1%R ++ " ( 2^ 0 1 )" ++ nl /\
  computer_str fixed (/ 10 ^ 6) (mkComputer 1 [C1; C0] (zeros 2) 0 0) = Ok ("Computer(" ++ nl ++ fixed 1%R ++ " |0>" ++ nl ++ ")").
Proof.
  destruct six_decimals_exist as (fixed & H). exists fixed. split; [exact H|]. eexists. split; [reflexivity|]. split; [repeat constructor; eapply (lib_make "cX" 1 0 0); reflexivity|].
  assert (T : forall x, to_string fixed (mkC x 0) = fixed x) by (intros x; unfold to_string; cbn [Im Re]; destruct (Req_EM_T 0 0); [reflexivity|contradiction]).
  split; [unfold qubit_operator_str; cbn [fold_left app fst snd]; rewrite T; reflexivity|]. split.
  - unfold sq_operator_str. cbn [fold_left app fst snd]. rewrite T, join_text. cbn [join]. reflexivity.
  - rewrite computer_text by (try (split; reflexivity); cbn; lia). unfold shown_list, nbasis. cbn [nqubit coeff Nat.pow Nat.mul Nat.add seq filter nth]. rewrite Cabs_C0, Cabs_C1.
    assert (P : (0 < / 10 ^ 6)%R) by (apply Rinv_0_lt_compat, pow_lt; lra). destruct (Rltb_spec 0 (/ 10 ^ 6)) as [_|Q]; [|lra]. destruct (Rltb_spec 1 (/ 10 ^ 6)) as [Q|_]; [exfalso; assert (/ 10 ^ 6 < / 1)%R by (apply Rinv_lt_contravar; lra); lra|].
    cbn [negb map]. unfold line. cbn [nth]. unfold C1 at 1. rewrite T. cbn [app join]. rewrite !append_assoc. reflexivity.
Qed.
(** a pool with one operator, and a pool with one SQ operator, in full *)
Example C95_pools : exists fixed, SixDecimals fixed /\ exists cx, make_gate "cX" 1 0 0 = Ok cx /\ Forall (fun t : C * qop => LabelledOp (snd t)) [(mkC 2 0, [(mkC (1 / 2) 0, [cx])])] /\
  qubit_pool_str fixed [(mkC 2 0, [(mkC (1 / 2) 0, [cx])])] = " -----> 0 <-----" ++ nl ++ " " ++ fixed 2%R ++ " [" ++ nl ++ " " ++ fixed (1 / 2)%R ++ "[cX1_0] " ++ nl ++ " ]" ++ nl ++ nl /\
  sq_pool_str fixed [(mkC 2 0, [((mkC 1 0, [2]), [0])])] = " -----> 0 <-----" ++ nl ++ " " ++ fixed 2%R ++ " [" ++ nl ++ "  " ++ fixed 1%R ++ " ( 2^ 0 )" ++ nl ++ " ]" ++ nl ++ nl.
Proof.
  destruct six_decimals_exist as (fixed & H). exists fixed. split; [exact H|]. eexists. split; [reflexivity|]. split; [repeat constructor; eapply (lib_make "cX" 1 0 0); reflexivity|].
  assert (T : forall x, to_string fixed (mkC x 0) = fixed x) by (intros x; unfold to_string; cbn [Im Re]; destruct (Req_EM_T 0 0); [reflexivity|contradiction]).
  split; [rewrite C95_qubit_pool_text|rewrite C95_pool_text].
  - cbn [qpool_body fst snd]. rewrite C95_operator_text. cbn [map join fst snd]. rewrite !T, !append_assoc. reflexivity.
  - cbn [pool_body fst snd]. rewrite C95_sq_text. cbn [fold_right]. unfold fcoef, fcre, fann. cbn [fst snd fold_right]. rewrite !T, !append_assoc. reflexivity.
Qed.
