(** C96: smart_print. *)
From Coq Require Import Reals String Ascii List Arith Bool Lia Lra.
From Verif Require Import CBase Result Bits Spec GateModel ComputerModel OperatorModel IoModel PropIo StrModel PropStr PrintModel.
Import ListNotations.
Local Open Scope string_scope.

Lemma py_join_eq sep l : py_join sep l = join sep l.
Proof. induction l as [|a l IH]; [reflexivity|]. destruct l; [reflexivity|]. change (py_join sep (a :: s :: l)) with (a ++ sep ++ py_join sep (s :: l)). rewrite IH. reflexivity. Qed.
(** cutting a text at blanks and joining the pieces gives the text back *)
Lemma split_glue c s : join (String c "") (split_at c s) = s.
Proof.
  unfold split_at. induction s as [|d s IH]; [reflexivity|]. cbn [pieces]. destruct (Ascii.eqb_spec c d) as [<-|_].
  - cbn [fst snd]. rewrite join_cons, IH. reflexivity.
  - cbn [fst snd]. destruct (pieces (Ascii.eqb c) s) as (a, l). cbn [fst snd] in *. destruct l as [|b l]; [cbn in *; now f_equal|]. rewrite join_cons in *. cbn [append]. now f_equal.
Qed.
Lemma slice_brackets s : slice_inner ("[" ++ s ++ "]") = s.
Proof.
  unfold slice_inner. cbn [append String.length substring]. assert (L : String.length (s ++ "]") = S (String.length s)) by (induction s as [|c s IH]; [reflexivity|cbn [append String.length]; now rewrite IH]). rewrite L. replace (S (S (String.length s)) - 2)%nat with (String.length s) by lia. clear L.
  induction s as [|c s IH]; [reflexivity|]. cbn [append String.length substring]. f_equal. exact IH.
Qed.
Lemma parentheses gs : in_parentheses gs = "(" ++ join " " (rev (map gate_str gs)) ++ ") " ++ ket_psi ++ nl.
Proof. unfold in_parentheses. cbn zeta. rewrite circuit_text, slice_brackets, py_join_eq, split_glue, !append_assoc. reflexivity. Qed.

(** a circuit is printed as the product of its gates applied to |Psi>, first gate on the right *)
Theorem C96_circuit : forall fixed crepr T gs, smart_print fixed crepr T (PrintCircuit gs) = Ok (nl ++ " Quantum circuit:" ++ nl ++ "(" ++ join " " (rev (map gate_str gs)) ++ ") " ++ ket_psi ++ nl).
Proof. intros. unfold smart_print. rewrite parentheses, !append_assoc. reflexivity. Qed.
Print Assumptions C96_circuit.
(** an operator is printed as the sum of its terms *)
Theorem C96_operator : forall fixed crepr T o, smart_print fixed crepr T (PrintOperator o) =
  Ok (nl ++ " Quantum operator:" ++ nl ++ join "+ " (map (fun t => crepr (fst t) ++ " (" ++ join " " (rev (map gate_str (snd t))) ++ ") " ++ ket_psi ++ nl) o)).
Proof.
  intros fixed crepr T o. unfold smart_print. f_equal. set (f := fun t : C * list gate => crepr (fst t) ++ " (" ++ join " " (rev (map gate_str (snd t))) ++ ") " ++ ket_psi ++ nl).
  assert (G : forall l out, fst (fold_left (fun st t => let out := if (snd st : bool) then fst st else fst st ++ "+" ++ " " in (out ++ crepr (fst t) ++ " " ++ in_parentheses (snd t), false)) l (out, false)) = out ++ fold_right (fun t r => "+ " ++ f t ++ r) "" l).
  { induction l as [|t l IH]; intros out; [symmetry; apply append_nil|]. cbn [fold_left snd fst]. rewrite IH. cbn [fold_right]. unfold f at 2. rewrite parentheses, !append_assoc. reflexivity. }
  assert (J : forall a l, join "+ " (a :: map f l) = a ++ fold_right (fun t r => "+ " ++ f t ++ r) "" l).
  { intros a l. revert a. induction l as [|b l IH]; intros a; [symmetry; apply append_nil|]. cbn [map]. rewrite join_cons, IH. reflexivity. }
  destruct o as [|t o]; [reflexivity|]. cbn [fold_left snd fst]. rewrite G. cbn [map]. rewrite J. unfold f at 2. rewrite parentheses, !append_assoc. reflexivity.
Qed.
Print Assumptions C96_operator.
(** of a computer every character of str() is printed on a line of its own: the text of the state is never printed *)
Theorem C96_computer_partial : forall fixed crepr T q s, computer_str fixed T q = Ok s ->
  smart_print fixed crepr T (PrintComputer q) = Ok (nl ++ " Quantum Computer:" ++ nl ++ join nl (characters s) ++ nl).
Proof. intros fixed crepr T q s E. unfold smart_print. rewrite E. cbn [bind]. rewrite py_join_eq, !append_assoc. reflexivity. Qed.
Print Assumptions C96_computer_partial.
Theorem C96_computer_refuted : forall fixed crepr T q s, wf_computer q -> (nqubit q <= 64)%nat -> computer_str fixed T q = Ok s ->
  smart_print fixed crepr T (PrintComputer q) <> Ok (nl ++ " Quantum Computer:" ++ nl ++ s ++ nl).
Proof.
  intros fixed crepr T q s W Hn E Q. rewrite (C96_computer_partial _ _ _ _ _ E) in Q. rewrite C95_state_text in E by assumption. assert (OI : forall a b : string, Ok a = Ok b -> a = b) by congruence. apply OI in E. apply OI in Q.
  apply app_front, app_front, app_front in Q. rewrite <- E in Q. cbn [append characters] in Q. rewrite join_cons in Q. discriminate Q.
Qed.
Print Assumptions C96_computer_refuted.
Example C96_nonvacuous : exists cx h, make_gate "cX" 1 0 0 = Ok cx /\ make_gate "H" 0 0 0 = Ok h /\
  forall fixed crepr T, smart_print fixed crepr T (PrintCircuit [h; cx]) = Ok (nl ++ " Quantum circuit:" ++ nl ++ "(cX1_0 H0) " ++ ket_psi ++ nl).
Proof. eexists. eexists. split; [reflexivity|]. split; [reflexivity|]. intros. rewrite C96_circuit. reflexivity. Qed.
