(** C77: circuits and operators from text, the transverse field Ising model. *)
From Coq Require Import Reals String Ascii List Arith ZArith Bool Lia Lra DecimalString DecimalNat.
From Verif Require Import CBase Result Bits Spec OpSpec GateModel ComputerModel SafeProofs LibProofs CircuitModel CircuitProofs PauliProofs OperatorModel OperatorProofs OrderProofs MeasureModel PyModel PropOperator PropMeasure PropGrad QkProofs PauliPhase CompactAct IoModel.
Import ListNotations.
Local Open Scope string_scope.

(** ---- vocabulary ---- *)
Fixpoint all_chars (p : ascii -> bool) (s : string) : Prop := match s with EmptyString => True | String c r => p c = true /\ all_chars p r end.
(** words and white space *)
Definition Blank (s : string) : Prop := all_chars is_space s.
Definition Word (s : string) : Prop := s <> "" /\ all_chars (fun c => negb (is_space c)) s.
Definition starts_blank (s : string) : Prop := match s with EmptyString => True | String c _ => is_space c = true end.
(** a text made of the given words, separated (and possibly surrounded) by white space *)
Inductive Text : list string -> string -> Prop :=
| text_end : forall b, Blank b -> Text [] b
| text_word : forall b w ws rest, Blank b -> Word w -> starts_blank rest -> Text ws rest -> Text (w :: ws) (b ++ w ++ rest).
(** the gates that can be written: one qubit gates, two qubit gates without parameter, and
    rotations with the text of the angle *)
Inductive written := Simple (l : string) (t : nat) | Double (l : string) (t c : nat) | Rotation (l : string) (t : nat) (angle : string).
Definition write (g : written) : string :=
  match g with
  | Simple l t => l ++ "_" ++ dec t
  | Double l t c => l ++ "_" ++ dec t ++ "_" ++ dec c
  | Rotation l t a => l ++ "_" ++ dec t ++ "_" ++ a
  end.
Definition Legal (flt : string -> option R) (g : written) : Prop :=
  match g with
  | Simple l _ => In l ["X"; "Y"; "Z"; "H"; "V"; "S"; "T"; "I"]
  | Double l t c => In l ["SWAP"; "cV"; "CNOT"; "cX"; "aCNOT"; "acX"; "cY"; "cZ"] /\ t <> c
  | Rotation l _ a => In l ["R"; "Rx"; "Ry"; "Rz"] /\ Word a /\ all_chars (fun c => negb (Ascii.eqb "_" c)) a /\ flt a <> None
  end.
(** the gate that is meant *)
Definition Meant (flt : string -> option R) (g : written) (r : gate) : Prop :=
  match g with
  | Simple l t => make_gate l t t 0 = Ok r
  | Double l t c => make_gate l t c 0 = Ok r
  | Rotation l t a => exists p, flt a = Some p /\ make_gate l t t p = Ok r
  end.

(** ---- splitting ---- *)
Lemma pieces_word p a r : all_chars (fun c => negb (p c)) a -> pieces p (a ++ r) = ((a ++ fst (pieces p r)), snd (pieces p r)).
Proof.
  induction a as [|c a IH]; intros H; [cbn [append]; destruct (pieces p r); reflexivity|]. destruct H as (H1 & H2). cbn [append pieces]. rewrite (IH H2). cbn [fst snd]. destruct (p c); [discriminate|reflexivity].
Qed.
Lemma pieces_sep p c r : p c = true -> pieces p (String c r) = ("", fst (pieces p r) :: snd (pieces p r)).
Proof. intros H. cbn [pieces]. now rewrite H. Qed.
Lemma append_nil s : s ++ "" = s.
Proof. induction s as [|c s IH]; [reflexivity|]. cbn. now rewrite IH. Qed.
Lemma append_assoc a b c : (a ++ b) ++ c = a ++ b ++ c.
Proof. induction a as [|x a IH]; [reflexivity|]. cbn. now rewrite IH. Qed.
Lemma pieces_one p a : all_chars (fun c => negb (p c)) a -> pieces p a = (a, []).
Proof. intros H. rewrite <- (append_nil a) at 1. rewrite pieces_word by exact H. cbn [pieces fst snd]. now rewrite append_nil. Qed.
Lemma split_blank b r : Blank b -> split_space (b ++ r) = split_space r.
Proof.
  induction b as [|c b IH]; intros H; [reflexivity|]. destruct H as (H1 & H2). cbn [append]. unfold split_space. rewrite (pieces_sep _ _ _ H1). cbn [fst snd filter String.eqb negb]. apply (IH H2).
Qed.
Lemma split_text ws s : Text ws s -> split_space s = ws.
Proof.
  induction 1 as [b Hb|b w ws rest Hb (Hw & Hc) Hs _ IH].
  - rewrite <- (append_nil b). rewrite split_blank by exact Hb. reflexivity.
  - rewrite split_blank by exact Hb. unfold split_space in *. rewrite pieces_word by exact Hc. cbn [fst snd]. assert (NE : forall q, String.eqb (w ++ q) "" = false) by (intros q; destruct w; [contradiction|reflexivity]).
    cbn [filter]. rewrite NE. cbn [negb]. destruct rest as [|c r].
    + cbn [pieces fst snd filter String.eqb negb] in *. rewrite append_nil, <- IH. reflexivity.
    + cbn in Hs. rewrite (pieces_sep _ _ _ Hs) in *. cbn [fst snd filter String.eqb negb] in *. rewrite append_nil, IH. reflexivity.
Qed.
Lemma split_cons c a r : all_chars (fun d => negb (Ascii.eqb c d)) a -> split_at c (a ++ String c r) = a :: split_at c r.
Proof. intros H. unfold split_at. rewrite pieces_word by exact H. rewrite pieces_sep by apply Ascii.eqb_refl. cbn [fst snd]. now rewrite append_nil. Qed.
Lemma split_last c a : all_chars (fun d => negb (Ascii.eqb c d)) a -> split_at c a = [a].
Proof. intros H. unfold split_at. rewrite pieces_one by exact H. reflexivity. Qed.

(** ---- numbers ---- *)
Definition digit (c : ascii) : bool := let n := nat_of_ascii c in Nat.leb 48 n && Nat.leb n 57.
Lemma all_impl (p q : ascii -> bool) s : (forall c, p c = true -> q c = true) -> all_chars p s -> all_chars q s.
Proof. intros H. induction s as [|c s IH]; [trivial|]. intros (H1 & H2). split; [now apply H|now apply IH]. Qed.
Lemma empty_digits u : all_chars digit (NilEmpty.string_of_uint u).
Proof. induction u; cbn [NilEmpty.string_of_uint all_chars]; (exact I || (split; [reflexivity|assumption])). Qed.
Lemma to_uint_nonnil n : Nat.to_uint n <> Decimal.Nil.
Proof. intros E. assert (H : Nat.of_uint (Nat.to_uint n) = n) by apply Unsigned.of_to. rewrite E in H. cbn in H. subst n. discriminate. Qed.
Lemma dec_digits n : all_chars digit (dec n) /\ dec n <> "".
Proof.
  unfold dec, NilZero.string_of_uint. pose proof (to_uint_nonnil n) as HN. pose proof (empty_digits (Nat.to_uint n)) as HD. destruct (Nat.to_uint n); [contradiction| | | | | | | | | |]; (split; [exact HD|discriminate]).
Qed.
Lemma digits_dec n : digits_of (dec n) = Ok n.
Proof. unfold digits_of, dec. rewrite NilZero.usu by apply to_uint_nonnil. now rewrite Unsigned.of_to. Qed.
Lemma int_digits s n : all_chars digit s -> digits_of s = Ok n -> int_of s = Ok (Z.of_nat n).
Proof.
  intros H E. assert (D : forall c, digit c = true -> c <> "-"%char /\ c <> "+"%char) by (intros c Hc; split; intros ->; discriminate).
  unfold int_of. destruct s as [|c s]; [rewrite E; reflexivity|]. destruct H as (H & _). destruct (D c H) as (N1 & N2). destruct c as [[|] [|] [|] [|] [|] [|] [|] [|]]; try (rewrite E; reflexivity); exfalso; (now apply N1) || (now apply N2).
Qed.
Lemma int_dec n : int_of (dec n) = Ok (Z.of_nat n).
Proof. apply int_digits; [apply dec_digits|apply digits_dec]. Qed.
Lemma size_nat n : to_size (Z.of_nat n) = Ok n.
Proof. unfold to_size. destruct (Z.ltb_spec (Z.of_nat n) 0); [lia|]. now rewrite Nat2Z.id. Qed.
Lemma digit_plain c : digit c = true -> negb (Ascii.eqb "_" c) = true /\ negb (is_space c) = true.
Proof. destruct c as [[|] [|] [|] [|] [|] [|] [|] [|]]; cbn; intros H; try discriminate; split; reflexivity. Qed.
Lemma dec_plain n : all_chars (fun c => negb (Ascii.eqb "_" c)) (dec n) /\ all_chars (fun c => negb (is_space c)) (dec n).
Proof. destruct (dec_digits n) as (H & _). split; (eapply all_impl; [|exact H]; intros c Hc; now apply digit_plain in Hc). Qed.
Ltac label := repeat split.
Lemma parse_written flt g : Legal flt g -> exists r, parse_gate flt (write g) = Ok r /\ Meant flt g r.
Proof.
  destruct g as [l t|l t c|l t a]; cbn [Legal write Meant].
  - intros Hl. assert (HU : all_chars (fun d => negb (Ascii.eqb "_" d)) l) by (cbn in Hl; repeat (destruct Hl as [<-|Hl]; [cbn; label|]); destruct Hl).
    unfold parse_gate. change (l ++ "_" ++ dec t) with (l ++ String "_" (dec t)). rewrite (split_cons _ _ _ HU), (split_last _ _ (proj1 (dec_plain t))). cbn [length Nat.eqb item nth_error bind]. rewrite int_dec. cbn [bind]. unfold gate2z. rewrite size_nat. cbn [bind].
    unfold py_gate2. rewrite Nat.eqb_refl. cbn in Hl. repeat (destruct Hl as [<-|Hl]; [cbn [existsb String.eqb Ascii.eqb Bool.eqb orb andb]; unfold make_gate; rewrite Nat.eqb_refl; eexists; split; reflexivity|]). destruct Hl.
  - intros (Hl & Hn). assert (HU : all_chars (fun d => negb (Ascii.eqb "_" d)) l) by (cbn in Hl; repeat (destruct Hl as [<-|Hl]; [cbn; label|]); destruct Hl).
    unfold parse_gate. change (l ++ "_" ++ dec t ++ "_" ++ dec c) with (l ++ String "_" (dec t ++ String "_" (dec c))). rewrite (split_cons _ _ _ HU), (split_cons _ _ _ (proj1 (dec_plain t))), (split_last _ _ (proj1 (dec_plain c))). cbn [length Nat.eqb item nth_error bind].
    assert (HR : has_char "R" l = false) by (cbn in Hl; repeat (destruct Hl as [<-|Hl]; [reflexivity|]); destruct Hl). rewrite HR. rewrite !int_dec. cbn [bind]. unfold gate2z. rewrite !size_nat. cbn [bind].
    unfold py_gate2. cbn in Hl. repeat (destruct Hl as [<-|Hl]; [cbn [existsb String.eqb Ascii.eqb Bool.eqb orb andb]; unfold make_gate; rewrite (proj2 (Nat.eqb_neq t c) Hn); eexists; split; reflexivity|]). destruct Hl.
  - intros (Hl & Ha & Hu & Hf). assert (HU : all_chars (fun d => negb (Ascii.eqb "_" d)) l) by (cbn in Hl; repeat (destruct Hl as [<-|Hl]; [cbn; label|]); destruct Hl).
    unfold parse_gate. change (l ++ "_" ++ dec t ++ "_" ++ a) with (l ++ String "_" (dec t ++ String "_" a)). rewrite (split_cons _ _ _ HU), (split_cons _ _ _ (proj1 (dec_plain t))), (split_last _ _ Hu). cbn [length Nat.eqb item nth_error bind].
    assert (HR : has_char "R" l = true) by (cbn in Hl; repeat (destruct Hl as [<-|Hl]; [reflexivity|]); destruct Hl). rewrite HR, int_dec. cbn [bind]. destruct (flt a) as [p|]; [|contradiction]. unfold gate3z. rewrite size_nat. cbn [bind].
    unfold py_gate3. cbn in Hl. repeat (destruct Hl as [<-|Hl]; [unfold make_gate; rewrite Nat.eqb_refl; cbn [String.eqb Ascii.eqb Bool.eqb]; eexists; split; [reflexivity|exists p; split; reflexivity]|]). destruct Hl.
Qed.

(** ---- C77 ---- *)
Theorem C77_build_circuit_partial : forall flt gs s, Forall (Legal flt) gs -> Text (map write gs) s -> exists rs, build_circuit flt s = Ok rs /\ Forall2 (Meant flt) gs rs.
Proof.
  intros flt gs s HL HT. unfold build_circuit. rewrite (split_text _ _ HT). clear HT s. enough (G : forall c, exists rs, foreach (map write gs) (fun word c => do g <- parse_gate flt word; Ok (c ++ [g])%list) c = Ok (c ++ rs)%list /\ Forall2 (Meant flt) gs rs) by (apply (G [])).
  induction HL as [|g gs Hg _ IH]; intros c; [exists []; rewrite app_nil_r; split; [reflexivity|constructor]|]. cbn [map foreach]. destruct (parse_written flt g Hg) as (r & E & M). rewrite E. cbn [bind]. destruct (IH (c ++ [r])%list) as (rs & E2 & F). exists (r :: rs). rewrite E2, <- app_assoc. split; [reflexivity|now constructor].
Qed.
Print Assumptions C77_build_circuit_partial.
(** the documented form label_target_control_parameter never works: gates with both a control
    and a parameter cannot be written *)
Theorem C77_controlled_rotation_refuted : forall flt l t c a rs, In l ["cR"; "cRz"; "A"] -> Word a -> all_chars (fun d => negb (Ascii.eqb "_" d)) a -> build_circuit flt (l ++ "_" ++ dec t ++ "_" ++ dec c ++ "_" ++ a) <> Ok rs.
Proof.
  intros flt l t c a rs Hl Ha Hu E. set (w := l ++ "_" ++ dec t ++ "_" ++ dec c ++ "_" ++ a) in *.
  assert (HW : Text [w] w).
  { rewrite <- (append_nil w) at 2. apply (text_word "" w [] ""); [exact I| |exact I|apply text_end; exact I]. destruct Ha as (A1 & A2). split; [cbn in Hl; unfold w; repeat (destruct Hl as [<-|Hl]; [discriminate|]); destruct Hl|].
    assert (AP : forall p x y, all_chars p x -> all_chars p y -> all_chars p (x ++ y)) by (intros p x y; induction x as [|d x IHx]; intros X Y; [exact Y|destruct X; split; [assumption|now apply IHx]]).
    unfold w. repeat apply AP; try apply dec_plain; try exact A2; try (cbn; label). cbn in Hl. repeat (destruct Hl as [<-|Hl]; [cbn; label|]). destruct Hl. }
  unfold build_circuit in E. rewrite (split_text _ _ HW) in E. cbn [foreach] in E.
  assert (HU : all_chars (fun d => negb (Ascii.eqb "_" d)) l) by (cbn in Hl; repeat (destruct Hl as [<-|Hl]; [cbn; label|]); destruct Hl).
  assert (HP : forall g, parse_gate flt w <> Ok g).
  { intros g. unfold parse_gate, w. change (l ++ "_" ++ dec t ++ "_" ++ dec c ++ "_" ++ a) with (l ++ String "_" (dec t ++ String "_" (dec c ++ String "_" a))). rewrite (split_cons _ _ _ HU), (split_cons _ _ _ (proj1 (dec_plain t))), (split_cons _ _ _ (proj1 (dec_plain c))), (split_last _ _ Hu). cbn [length Nat.eqb item nth_error bind]. rewrite !int_dec. cbn [bind]. unfold gate2z, gate3z. rewrite !size_nat. cbn [bind].
    unfold py_gate3, py_gate2. cbn in Hl. destruct Hl as [<-|[<-|[<-|[]]]].
    - cbn [has_char Ascii.eqb Bool.eqb orb]. destruct (flt (dec c)); [|discriminate]. unfold make_gate. rewrite Nat.eqb_refl. cbn. discriminate.
    - cbn [has_char Ascii.eqb Bool.eqb orb]. destruct (flt (dec c)); [|discriminate]. unfold make_gate. rewrite Nat.eqb_refl. cbn. discriminate.
    - cbn [has_char Ascii.eqb Bool.eqb orb existsb String.eqb]. rewrite andb_false_r. discriminate. }
  destruct (parse_gate flt w) as [g|]; cbn [bind] in E; [now elim (HP g)|discriminate].
Qed.
Print Assumptions C77_controlled_rotation_refuted.
(** a gate without a qubit raises IndexError *)
Theorem C77_missing_target_raises : forall flt w, Word w -> all_chars (fun d => negb (Ascii.eqb "_" d)) w -> build_circuit flt w = Throw (PyError "IndexError").
Proof.
  intros flt w Hw Hu. assert (HW : Text [w] w) by (rewrite <- (append_nil w) at 2; apply (text_word "" w [] ""); [exact I|exact Hw|exact I|apply text_end; exact I]).
  unfold build_circuit. rewrite (split_text _ _ HW). cbn [foreach]. unfold parse_gate. rewrite (split_last _ _ Hu). cbn [length Nat.eqb item nth_error bind]. destruct (has_char "R" w); reflexivity.
Qed.
(** the characters that separate words: tab to carriage return, FS to US, space *)
Theorem C77_white_space : forall c, is_space c = true <-> In (nat_of_ascii c) [9; 10; 11; 12; 13; 28; 29; 30; 31; 32]%nat.
Proof.
  intros c. unfold is_space. generalize (nat_of_ascii c). intros n. change [9; 10; 11; 12; 13; 28; 29; 30; 31; 32]%nat with (seq 9 5 ++ seq 28 5)%list. rewrite in_app_iff, !in_seq, ?orb_true_iff, ?andb_true_iff, ?Nat.leb_le, ?Nat.eqb_eq. lia.
Qed.
Print Assumptions C77_white_space.
(** a negative qubit raises TypeError; a plus sign changes nothing *)
Theorem C77_signed_qubit : forall flt l t, In l ["X"; "Y"; "Z"; "H"; "V"; "S"; "T"; "I"] ->
  ((0 < t)%nat -> build_circuit flt (l ++ "_-" ++ dec t) = Throw (PyError "TypeError")) /\
  build_circuit flt (l ++ "_+" ++ dec t) = build_circuit flt (l ++ "_" ++ dec t).
Proof.
  intros flt l t Hl. assert (HU : all_chars (fun d => negb (Ascii.eqb "_" d)) l) by (cbn in Hl; repeat (destruct Hl as [<-|Hl]; [cbn; label|]); destruct Hl).
  assert (AP : forall p x y, all_chars p x -> all_chars p y -> all_chars p (x ++ y)) by (intros p x y; induction x as [|d x IHx]; intros X Y; [exact Y|destruct X; split; [assumption|now apply IHx]]).
  assert (HS : forall u, all_chars (fun c => negb (is_space c)) u -> split_space (l ++ u) = [l ++ u]).
  { intros u Hu. apply split_text. rewrite <- (append_nil (l ++ u)) at 2. apply (text_word "" (l ++ u) [] ""); [exact I| |exact I|apply text_end; exact I]. cbn in Hl. repeat (destruct Hl as [<-|Hl]; [split; [discriminate|apply AP; [cbn; label|exact Hu]]|]). destruct Hl. }
  assert (HD := dec_plain t). assert (E : forall x, build_circuit flt (l ++ String "_" x) = match split_space (l ++ String "_" x) with [w] => do c <- (do g <- parse_gate flt w; Ok [g]); Ok c | _ => build_circuit flt (l ++ String "_" x) end).
  { intros x. unfold build_circuit. destruct (split_space (l ++ String "_" x)) as [|w [|]]; try reflexivity; cbn [foreach]; destruct (parse_gate flt w); reflexivity. }
  assert (HP : forall x, all_chars (fun d => negb (Ascii.eqb "_" d)) x -> parse_gate flt (l ++ String "_" x) = (do z <- int_of x; gate2z l z z)).
  { intros x Hx. unfold parse_gate. rewrite (split_cons _ _ _ HU), (split_last _ _ Hx). cbn [length Nat.eqb item nth_error bind]. reflexivity. }
  split.
  - intros Ht. change (l ++ "_-" ++ dec t) with (l ++ String "_" (String "-" (dec t))). rewrite E, HS by (cbn; split; [reflexivity|split; [reflexivity|apply HD]]). rewrite HP by (cbn; split; [reflexivity|apply HD]).
    cbn [int_of]. rewrite digits_dec. cbn [bind]. unfold gate2z, to_size. destruct (Z.ltb_spec (- Z.of_nat t) 0); [reflexivity|lia].
  - change (l ++ "_+" ++ dec t) with (l ++ String "_" (String "+" (dec t))). change (l ++ "_" ++ dec t) with (l ++ String "_" (dec t)). rewrite (E (String "+" (dec t))), (E (dec t)). rewrite !HS by (cbn; repeat split; apply HD). rewrite !HP by (first [apply HD|cbn; split; [reflexivity|apply HD]]).
    rewrite int_dec. cbn [int_of]. rewrite digits_dec. reflexivity.
Qed.
Print Assumptions C77_signed_qubit.
Example C77_signed : build_circuit (fun _ => None) "X_-3" = Throw (PyError "TypeError").
Proof. reflexivity. Qed.
(** operators: coefficient, circuit; coefficient, circuit; ... *)
Fixpoint join (sep : string) (l : list string) : string := match l with [] => "" | [a] => a | a :: r => a ++ sep ++ join sep r end.
Definition no_char (c : ascii) (s : string) : Prop := all_chars (fun d => negb (Ascii.eqb c d)) s.
Record TermText (flt : string -> option R) (cplx : string -> option C) (x : C * list written * (string * string)) : Prop := {
  tt_coeff : cplx (fst (snd x)) = Some (fst (fst x));
  tt_legal : Forall (Legal flt) (snd (fst x));
  tt_text : Text (map write (snd (fst x))) (snd (snd x));
  tt_clean : no_char "," (fst (snd x)) /\ no_char ";" (fst (snd x)) /\ no_char "," (snd (snd x)) /\ no_char ";" (snd (snd x)) }.
Lemma split_join c ts : ts <> [] -> Forall (no_char c) ts -> split_at c (join (String c "") ts) = ts.
Proof.
  intros Hn HF. induction HF as [|t ts Ht HF IH]; [contradiction|]. destruct ts as [|u ts]; [cbn [join]; now apply split_last|]. change (join (String c "") (t :: u :: ts)) with (t ++ String c (join (String c "") (u :: ts))). rewrite split_cons by exact Ht. rewrite IH by discriminate. reflexivity.
Qed.
Theorem C77_build_operator_partial : forall flt cplx xs, xs <> [] -> Forall (TermText flt cplx) xs ->
  exists o, build_operator flt cplx (join ";" (map (fun x => fst (snd x) ++ "," ++ snd (snd x)) xs)) = Ok o /\ Forall2 (fun x t => fst t = fst (fst x) /\ Forall2 (Meant flt) (snd (fst x)) (snd t)) xs o.
Proof.
  intros flt cplx xs Hn HF. unfold build_operator. rewrite split_join.
  - clear Hn. set (body := fun term o => _). enough (G : forall o0, exists o, foreach (map (fun x : C * list written * (string * string) => fst (snd x) ++ "," ++ snd (snd x)) xs) body o0 = Ok (o0 ++ o)%list /\ Forall2 (fun x t => fst t = fst (fst x) /\ Forall2 (Meant flt) (snd (fst x)) (snd t)) xs o) by (apply (G [])).
    induction HF as [|x xs Hx _ IH]; intros o0; [exists []; rewrite app_nil_r; split; [reflexivity|constructor]|]. cbn [map foreach]. unfold body at 1. destruct Hx as [H1 H2 H3 (H4 & _ & H5 & _)]. change (fst (snd x) ++ "," ++ snd (snd x)) with (fst (snd x) ++ String "," (snd (snd x))). rewrite (split_cons _ _ _ H4), (split_last _ _ H5). cbn [item nth_error bind].
    rewrite H1. destruct (C77_build_circuit_partial flt _ _ H2 H3) as (gs & E & F). rewrite E. cbn [bind]. unfold op_add_term. destruct (IH (o0 ++ [(fst (fst x), gs)])%list) as (o & E2 & F2). exists ((fst (fst x), gs) :: o). rewrite E2, <- app_assoc. split; [reflexivity|]. constructor; [split; [reflexivity|exact F]|exact F2].
  - intros E. destruct xs; [contradiction|discriminate].
  - apply Forall_forall. intros s Hs. apply in_map_iff in Hs. destruct Hs as (x & <- & Ix). rewrite Forall_forall in HF. destruct (HF x Ix) as [_ _ _ (_ & H1 & _ & H2)].
    assert (AP : forall p x y, all_chars p x -> all_chars p y -> all_chars p (x ++ y)) by (intros p a b; induction a as [|d a IHx]; intros X Y; [exact Y|destruct X; split; [assumption|now apply IHx]]).
    unfold no_char in *. apply AP; [exact H1|]. apply AP; [cbn; label|exact H2].
Qed.
Print Assumptions C77_build_operator_partial.
(** the empty text is an error, not the zero operator *)
Theorem C77_empty_operator_refuted : forall flt cplx o, build_operator flt cplx "" <> Ok o.
Proof. intros flt cplx o. unfold build_operator. cbn. destruct (cplx ""); discriminate. Qed.

(** ---- the Ising model ---- *)
(** -h sum_i Z_i - J sum_i X_i X_(i+1) on an open chain of n sites *)
Definition ising (n : nat) (h J : R) (psi : state) : state := fun I =>
  (Csum (fun i => RtoC (- h) * (if bit I i then - C1 else C1) * psi I) (seq 0 n) + Csum (fun i => RtoC (- J) * psi (flip (flip I i) (i + 1)%nat)) (seq 0 (n - 1)))%C.
Lemma text2 a b : Word a -> Word b -> Text [a; b] (a ++ " " ++ b).
Proof. intros Ha Hb. apply (text_word "" a [b] (" " ++ b)); [exact I|exact Ha|reflexivity|]. rewrite <- (append_nil b) at 2. apply (text_word " " b [] ""); [cbn; label|exact Hb|exact I|apply text_end; exact I]. Qed.
Lemma word_xz l n : In l ["X"; "Z"] -> Word (l ++ "_" ++ dec n).
Proof. intros Hl. cbn in Hl. destruct Hl as [<-|[<-|[]]]; (split; [discriminate|]; cbn; repeat (split; [reflexivity|]); apply dec_plain). Qed.
Theorem C77_tfim : forall flt n h J, exists H, create_TFIM flt n h J = Ok (H, repeat 0%nat n) /\ Hamiltonian n H /\ length H = (n + (n - 1))%nat /\ forall psi, op_act H psi == ising n h J psi.
Proof.
  intros flt n h J. unfold create_TFIM. set (body := fun t o => _).
  assert (EZ : forall i, build_circuit flt ("Z_" ++ dec i) = Ok [gZ i]).
  { intros i. destruct (C77_build_circuit_partial flt [Simple "Z" i] ("Z_" ++ dec i)) as (rs & E & F).
    - constructor; [cbn; tauto|constructor].
    - cbn [map write]. rewrite <- (append_nil ("Z_" ++ dec i)). apply (text_word "" _ [] ""); [exact I|apply (word_xz "Z"); cbn; tauto|exact I|apply text_end; exact I].
    - rewrite E. inversion F as [|? r ? ? M F']; subst. inversion F'; subst. cbn [Meant] in M. unfold make_gate in M. rewrite Nat.eqb_refl in M. cbn in M. injection M as <-. reflexivity. }
  assert (EX : forall i, build_circuit flt ("X_" ++ dec i ++ " X_" ++ dec (i + 1)) = Ok [gX i; gX (i + 1)]).
  { intros i. destruct (C77_build_circuit_partial flt [Simple "X" i; Simple "X" (i + 1)] ("X_" ++ dec i ++ " X_" ++ dec (i + 1))) as (rs & E & F).
    - constructor; [cbn; tauto|constructor; [cbn; tauto|constructor]].
    - cbn [map write]. replace ("X_" ++ dec i ++ " X_" ++ dec (i + 1)) with (("X" ++ "_" ++ dec i) ++ " " ++ ("X" ++ "_" ++ dec (i + 1))) by (rewrite !append_assoc; reflexivity). apply text2; apply (word_xz "X"); cbn; tauto.
    - rewrite E. inversion F as [|? r ? ? M F']; subst. inversion F' as [|? r' ? ? M' F'']; subst. inversion F''; subst. cbn [Meant] in M, M'. unfold make_gate in M, M'. rewrite Nat.eqb_refl in M, M'. cbn in M, M'. injection M as <-. injection M' as <-. reflexivity. }
  set (HZ := map (fun i => (RtoC (- h), [gZ i])) (seq 0 n)). set (HX := map (fun i => (RtoC (- J), [gX i; gX (i + 1)])) (seq 0 (n - 1))).
  assert (LZ : forall l o, foreach (map (fun i => ((- h)%R, "Z_" ++ dec i)) l) body o = Ok (o ++ map (fun i => (RtoC (- h), [gZ i])) l)%list).
  { induction l as [|i l IH]; intros o; [cbn; now rewrite app_nil_r|]. cbn [map foreach]. unfold body at 1. cbn [fst snd]. rewrite EZ. cbn [bind]. unfold op_add_term. rewrite IH, <- app_assoc. reflexivity. }
  assert (LX : forall l o, foreach (map (fun i => ((- J)%R, "X_" ++ dec i ++ " X_" ++ dec (i + 1))) l) body o = Ok (o ++ map (fun i => (RtoC (- J), [gX i; gX (i + 1)])) l)%list).
  { induction l as [|i l IH]; intros o; [cbn; now rewrite app_nil_r|]. cbn [map foreach]. unfold body at 1. cbn [fst snd]. rewrite EX. cbn [bind]. unfold op_add_term. rewrite IH, <- app_assoc. reflexivity. }
  exists (HZ ++ HX)%list. rewrite foreach_app'. rewrite LZ. cbn [bind]. rewrite LX. cbn [bind]. split; [reflexivity|]. split; [|split].
  - apply Forall_app. split; apply Forall_forall; intros t Ht; apply in_map_iff in Ht; destruct Ht as (i & <- & Hi); apply in_seq in Hi; cbn [fst snd]; (split; [|reflexivity]).
    + split; [split|]; [constructor; [exists "Z", i; split; [tauto|reflexivity || (unfold make_gate; rewrite Nat.eqb_refl; reflexivity)]|constructor]|repeat constructor; intros []|constructor; [cbn; lia|constructor]].
    + split; [split|].
      * constructor; [exists "X", i; split; [tauto|unfold make_gate; rewrite Nat.eqb_refl; reflexivity]|]. constructor; [exists "X", (i + 1)%nat; split; [tauto|unfold make_gate; rewrite Nat.eqb_refl; reflexivity]|constructor].
      * unfold DistinctQubits. cbn [map gtarget gX]. constructor; [intros [E|[]]; lia|constructor; [intros []|constructor]].
      * constructor; [cbn; lia|constructor; [cbn; lia|constructor]].
  - rewrite app_length. unfold HZ, HX. now rewrite !map_length, !seq_length.
  - intros psi I. unfold op_act, ising. rewrite Csum_app. unfold HZ, HX. rewrite !Csum_map. cbn [fst snd]. f_equal.
    + apply Csum_ext. intros i _. rewrite string_act; [|constructor; [apply gZ_pauli|constructor]|cbn; constructor; [intros []|constructor]]. cbn -[bit flip]. destruct (bit I i); ring.
    + apply Csum_ext. intros i _. rewrite string_act; [|constructor; [apply gX_pauli|constructor; [apply gX_pauli|constructor]]|cbn; constructor; [intros [E|[]]; lia|constructor; [intros []|constructor]]]. cbn -[bit flip Nat.add]. ring.
Qed.
Print Assumptions C77_tfim.
(** the reference |0...0> has energy -h n *)
Theorem C77_tfim_reference : forall flt n h J H r, create_TFIM flt n h J = Ok (H, r) -> inner n (ket 0) (op_act H (ket 0)) = RtoC (- h * INR n).
Proof.
  intros flt n h J H r E. destruct (C77_tfim flt n h J) as (H' & E' & _ & _ & A). rewrite E in E'. injection E' as <- _. rewrite (inner_ext n _ _ _ _ (seq_refl _) (A (ket 0))). rewrite QftProofs.inner_ket by (pose proof (Nat.pow_nonzero 2 n); lia). unfold ising.
  rewrite (Csum_ext _ (fun _ => RtoC (- h)) (seq 0 n)).
  - rewrite (Csum_ext _ (fun _ => C0) (seq 0 (n - 1))).
    + assert (K : forall l, Csum (fun _ : nat => C0) l = C0) by (induction l as [|a l IH]; [reflexivity|rewrite Csum_cons, IH; ring]). rewrite K.
      assert (K2 : forall m a, Csum (fun _ : nat => RtoC (- h)) (seq a m) = RtoC (- h * INR m)) by (induction m as [|m IH]; intros a; [apply C_ext; cbn; ring|cbn [seq]; rewrite Csum_cons, IH, S_INR; apply C_ext; cbn; ring]). rewrite K2. ring.
    + intros i _. unfold ket. destruct (Nat.eqb_spec 0 (flip (flip 0 i) (i + 1))) as [Z|Z]; [|destruct (Nat.eqb_spec (flip (flip 0 i) (i + 1)) 0) as [Z'|Z']; [congruence|ring]].
      exfalso. assert (B : bit (flip (flip 0 i) (i + 1)) i = true) by (rewrite !bit_flip; destruct (Nat.eqb_spec i (i + 1)); [lia|]; rewrite Nat.eqb_refl; unfold bit; now rewrite Nat.bits_0). rewrite <- Z in B. unfold bit in B. now rewrite Nat.bits_0 in B.
  - intros i _. unfold bit. rewrite Nat.bits_0. unfold ket. cbn [Nat.eqb]. ring.
Qed.
Theorem C77_system_factory : forall s b a, choose_adapter s b = Ok a <-> (s, b, a) = ("molecule", "external", External) \/ (s, b, a) = ("molecule", "psi4", Psi4) \/ (s, b, a) = ("model", "TFIM", TFIM).
Proof.
  intros s b a. unfold choose_adapter. split.
  - destruct (String.eqb_spec s "molecule") as [->|]; [destruct (String.eqb_spec b "external") as [->|]; [intros E; injection E as <-; tauto|destruct (String.eqb_spec b "psi4") as [->|]; [intros E; injection E as <-; tauto|discriminate]]|].
    destruct (String.eqb_spec s "model") as [->|]; [|discriminate]. destruct (String.eqb_spec b "TFIM") as [->|]; [intros E; injection E as <-; tauto|discriminate].
  - intros [E|[E|E]]; injection E as -> -> ->; reflexivity.
Qed.
Example C77_nonvacuous : build_circuit (fun _ => Some 1%R) "  H_0  cX_12_0 S_7 " = Ok [mkGate "H" 0 0 m_H None; mkGate "cX" 12 0 m_cX None; mkGate "S" 7 7 m_S None] /\
  Text (map write [Simple "H" 0; Double "cX" 12 0; Simple "S" 7]) "  H_0  cX_12_0 S_7 " /\ Forall (Legal (fun _ => Some 1%R)) [Simple "H" 0; Double "cX" 12 0; Rotation "Rx" 3 "0.5"] /\
  TermText (fun _ => None) (fun _ => Some C1) ((C1, [Simple "Z" 3]), ("1.0", " Z_3")).
Proof.
  split; [reflexivity|]. split; [|split].
  - apply (text_word "  " "H_0" _ "  cX_12_0 S_7 "); [cbn; label|split; [discriminate|cbn; label]|reflexivity|]. apply (text_word "  " "cX_12_0" _ " S_7 "); [cbn; label|split; [discriminate|cbn; label]|reflexivity|]. apply (text_word " " "S_7" _ " "); [cbn; label|split; [discriminate|cbn; label]|reflexivity|]. apply text_end. cbn. label.
  - constructor; [cbn; tauto|]. constructor; [cbn; split; [tauto|discriminate]|]. constructor; [|constructor]. cbn [Legal]. split; [cbn; tauto|]. split; [split; [discriminate|cbn; label]|]. split; [cbn; label|discriminate].
  - split; cbn [fst snd]; [reflexivity|constructor; [cbn; tauto|constructor]| |repeat split; cbn; label].
    apply (text_word " " "Z_3" [] ""); [cbn; label|split; [discriminate|cbn; label]|exact I|apply text_end; exact I].
Qed.
