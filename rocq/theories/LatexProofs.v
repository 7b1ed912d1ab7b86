(** Circuit drawings (circuit_to_latex.py): the loop invariant. *)
From Coq Require Import String List Arith Bool ZArith Lia.
From Verif Require Import Result GateModel TaperModel LatexModel LatexSpec.
Import ListNotations.
Local Open Scope nat_scope.

Lemma memb_spec x l : memb x l = true <-> In x l.
Proof. unfold memb. rewrite existsb_exists. split; [intros (y & I & E); apply Nat.eqb_eq in E; now subst | intros I; exists x; split; [exact I | apply Nat.eqb_refl]]. Qed.
Lemma max_over_ge ws (count : nat -> nat) : forall m0 w, In w ws \/ False -> count w <= fold_left (fun m w => if Nat.ltb m (count w) then count w else m) ws m0 .
Proof.
  assert (K : forall ws m0, m0 <= fold_left (fun m w => if Nat.ltb m (count w) then count w else m) ws m0).
  { induction ws0 as [|x r IH]; intros m0; simpl; [lia|]. destruct (Nat.ltb_spec m0 (count x)); [etransitivity; [|apply IH]; lia | apply IH]. }
  induction ws as [|x r IH]; intros m0 w [I|[]]; [destruct I|]. simpl. destruct I as [->|I].
  - destruct (Nat.ltb_spec m0 (count w)); [apply K | etransitivity; [|apply K]; lia].
  - apply IH. now left.
Qed.
Lemma max_over_le ws (count : nat -> nat) : forall m0 B, m0 <= B -> (forall w, In w ws -> count w <= B) -> fold_left (fun m w => if Nat.ltb m (count w) then count w else m) ws m0 <= B.
Proof.
  induction ws as [|x r IH]; intros m0 B L H; simpl; [exact L|].
  apply IH; [|intros w I; apply H; now right]. destruct (Nat.ltb_spec m0 (count x)); [apply H; now left | exact L].
Qed.
Lemma max_ge ws count w : In w ws -> count w <= max_over ws count.
Proof. intros I. apply max_over_ge. now left. Qed.
Lemma max_le ws count B : (forall w, In w ws -> count w <= B) -> max_over ws count <= B.
Proof. intros H. apply max_over_le; [lia|exact H]. Qed.
Lemma max_in ws count : max_over ws count = 0 \/ exists w, In w ws /\ count w = max_over ws count.
Proof.
  unfold max_over.
  assert (K : forall ws m0, fold_left (fun m w => if Nat.ltb m (count w) then count w else m) ws m0 = m0 \/ exists w, In w ws /\ count w = fold_left (fun m w => if Nat.ltb m (count w) then count w else m) ws m0).
  { induction ws0 as [|x r IH]; intros m0; simpl; [now left|].
    destruct (Nat.ltb_spec m0 (count x)).
    - destruct (IH (count x)) as [E|(w & I & E)]; right; [exists x; split; [now left | symmetry; exact E] | exists w; split; [now right|exact E]].
    - destruct (IH m0) as [E|(w & I & E)]; [left; exact E | right; exists w; split; [now right|exact E]]. }
  apply K.
Qed.

Lemma fold_cells (h : nat -> nat -> list cell) : forall l st, NoDup l ->
  let st' := fold_left (fun st w => add_cells w (h w (ds_count st w)) st) l st in
  ds_done st' = ds_done st /\
  (forall w, ds_wire st' w = (ds_wire st w ++ (if memb w l then h w (ds_count st w) else []))%list) /\
  (forall w, ds_count st' w = ds_count st w + length (if memb w l then h w (ds_count st w) else [])).
Proof.
  induction l as [|x r IH]; intros st Nd; simpl.
  - split; [reflexivity|]. split; intros w; [now rewrite app_nil_r | lia].
  - inversion Nd as [|? ? Nx Nr]; subst.
    destruct (IH (add_cells x (h x (ds_count st x)) st) Nr) as (Dn & Wr & Ct).
    split; [rewrite Dn; reflexivity|].
    assert (M : memb x r = false).
    { destruct (memb x r) eqn:E; [|reflexivity]. apply memb_spec in E. contradiction. }
    split; intros w.
    + rewrite Wr. unfold add_cells; simpl. unfold setf. change (existsb (Nat.eqb w) r) with (memb w r).
      destruct (Nat.eqb_spec w x) as [->|N]; simpl; [rewrite M, app_nil_r; reflexivity | reflexivity].
    + rewrite Ct. unfold add_cells; simpl. unfold setf. change (existsb (Nat.eqb w) r) with (memb w r).
      destruct (Nat.eqb_spec w x) as [->|N]; simpl; [rewrite M; simpl; lia | reflexivity].
Qed.

(** what a gate puts in the row of qubit w *)
Definition sym (g : gate) (w : nat) : cell :=
  if Nat.eqb (gtarget g) (gcontrol g) then Box (glabel g)
  else if Nat.eqb w (gtarget g) then (if String.eqb (glabel g) "cZ" then Dot else Targ)
  else if Nat.eqb w (gcontrol g) then
    (if String.eqb (glabel g) "aCNOT" || String.eqb (glabel g) "acX" then OCtrl (Z.of_nat (gcontrol g) - Z.of_nat (gtarget g)) else Ctrl (Z.of_nat (gcontrol g) - Z.of_nat (gtarget g)))
  else Qw.
Definition lo g := Nat.min (gtarget g) (gcontrol g).
Definition hi g := Nat.max (gtarget g) (gcontrol g).
Definition spanl g := seq (lo g) (hi g + 1 - lo g).
Lemma spanl_spec g w : In w (spanl g) <-> Spans g w.
Proof. unfold spanl, Spans, lo, hi. rewrite in_seq. lia. Qed.
Lemma spanl_memb g w : memb w (spanl g) = true <-> Spans g w.
Proof. rewrite memb_spec. apply spanl_spec. Qed.
Definition supported (g : gate) : bool := Nat.eqb (gtarget g) (gcontrol g) || existsb (String.eqb (glabel g)) ["cZ"; "aCNOT"; "acX"; "CNOT"; "cX"]%string.

Definition ok_gate (ids : list nat) (g : gate) : Prop := supported g = true /\ forall w, Spans g w -> In w ids.

Lemma draw_spec ids st g : In (gtarget g) ids ->
  match draw_gate ids st g with
  | Ok st' => ok_gate ids g /\ ds_done st' = ds_done st /\
      (let D := max_over (spanl g) (ds_count st) in
      (forall w, ds_wire st' w = (ds_wire st w ++ if memb w (spanl g) then repeat Qw (D - ds_count st w) ++ [sym g w] else [])%list) /\
      (forall w, ds_count st' w = if memb w (spanl g) then S D else ds_count st w))
  | Throw _ => ~ ok_gate ids g
  end.
Proof.
  intros It. unfold draw_gate. destruct (Nat.eqb_spec (gtarget g) (gcontrol g)) as [E|N].
  - assert (Sp : spanl g = [gtarget g]).
    { unfold spanl, lo, hi. rewrite <- E, Nat.min_id, Nat.max_id. replace (gtarget g + 1 - gtarget g) with 1 by lia. reflexivity. }
    split; [split; [unfold supported; rewrite E, Nat.eqb_refl; reflexivity | intros w W; unfold Spans in W; replace w with (gtarget g) by lia; exact It]|].
    split; [reflexivity|]. rewrite Sp. simpl. unfold max_over; simpl.
    assert (D : (if Nat.ltb 0 (ds_count st (gtarget g)) then ds_count st (gtarget g) else 0) = ds_count st (gtarget g)) by (destruct (Nat.ltb_spec 0 (ds_count st (gtarget g))); lia).
    rewrite D. unfold setf, sym. rewrite E, Nat.eqb_refl, <- E.
    split; intros w; destruct (Nat.eqb_spec w (gtarget g)) as [->|Nw]; simpl; rewrite ?Nat.sub_diag, ?app_nil_r; try reflexivity; lia.
  - set (lo' := if Nat.ltb (gcontrol g) (gtarget g) then gcontrol g else gtarget g).
    set (hi' := if Nat.ltb (gcontrol g) (gtarget g) then gtarget g else gcontrol g).
    assert (EL : lo' = lo g) by (unfold lo', lo; destruct (Nat.ltb_spec (gcontrol g) (gtarget g)); lia).
    assert (EH : hi' = hi g) by (unfold hi', hi; destruct (Nat.ltb_spec (gcontrol g) (gtarget g)); lia).
    rewrite EL, EH. clear lo' hi' EL EH. fold (spanl g). cbv zeta.
    destruct (existsb (fun w => negb (memb w ids)) (spanl g)) eqn:Ex.
    { intros (_ & A). apply existsb_exists in Ex. destruct Ex as (w & I & F). apply spanl_spec in I. apply A, memb_spec in I. rewrite I in F. discriminate. }
    destruct (existsb (String.eqb (glabel g)) ["cZ"; "aCNOT"; "acX"; "CNOT"; "cX"]%string) eqn:Lb; unfold negb; cbv iota.
    2:{ intros (A & _). unfold supported in A. rewrite Lb in A. apply Nat.eqb_neq in N. rewrite N in A. discriminate. }
    split.
    { split; [unfold supported; rewrite Lb; apply orb_true_r|]. intros w W. destruct (memb w ids) eqn:Mw; [now apply memb_spec|].
      exfalso. rewrite <- not_true_iff_false in Ex. apply Ex. apply existsb_exists. exists w. split; [now apply spanl_spec | now rewrite Mw]. }
    assert (Nd : NoDup (spanl g)) by apply seq_NoDup.
    assert (Nd2 : NoDup (seq (S (lo g)) (hi g - S (lo g)))) by apply seq_NoDup.
    set (D := max_over (spanl g) (ds_count st)).
    destruct (fold_cells (fun w k => repeat Qw (D - k)) (spanl g) st Nd) as (D1 & W1 & C1).
    set (st1 := fold_left (fun st w => add_cells w (repeat Qw (D - ds_count st w)) st) (spanl g) st) in *.
    set (ct := if String.eqb (glabel g) "cZ" then Dot else Targ).
    set (cc := if String.eqb (glabel g) "aCNOT" || String.eqb (glabel g) "acX" then OCtrl (Z.of_nat (gcontrol g) - Z.of_nat (gtarget g)) else Ctrl (Z.of_nat (gcontrol g) - Z.of_nat (gtarget g))).
    set (st3 := add_cells (gcontrol g) [cc] (add_cells (gtarget g) [ct] st1)).
    destruct (fold_cells (fun _ _ => [Qw]) (seq (S (lo g)) (hi g - S (lo g))) st3 Nd2) as (D4 & W4 & C4).
    set (st4 := fold_left (fun st w => add_cells w [Qw] st) (seq (S (lo g)) (hi g - S (lo g))) st3) in *.
    split; [rewrite D4; unfold st3; simpl; exact D1|].
    assert (Ms : forall w, memb w (seq (S (lo g)) (hi g - S (lo g))) = if Nat.eqb w (gtarget g) then false else if Nat.eqb w (gcontrol g) then false else memb w (spanl g)).
    { intros w. destruct (memb w (seq (S (lo g)) (hi g - S (lo g)))) eqn:M.
      - apply memb_spec, in_seq in M. assert (Sw : memb w (spanl g) = true) by (apply spanl_memb; unfold Spans, lo, hi in *; lia).
        rewrite Sw. unfold lo, hi in M. destruct (Nat.eqb_spec w (gtarget g)); [lia|]. destruct (Nat.eqb_spec w (gcontrol g)); [lia|reflexivity].
      - destruct (Nat.eqb_spec w (gtarget g)); [reflexivity|]. destruct (Nat.eqb_spec w (gcontrol g)); [reflexivity|].
        destruct (memb w (spanl g)) eqn:Sw; [|reflexivity]. apply spanl_memb in Sw. rewrite <- M. apply memb_spec, in_seq. unfold Spans, lo, hi in *. lia. }
    assert (Mt : memb (gtarget g) (spanl g) = true) by (apply spanl_memb; unfold Spans; lia).
    assert (Mc : memb (gcontrol g) (spanl g) = true) by (apply spanl_memb; unfold Spans; lia).
    assert (Le : forall w, memb w (spanl g) = true -> ds_count st w <= D) by (intros w M; apply max_ge; now apply memb_spec).
    assert (Nb : Nat.eqb (gtarget g) (gcontrol g) = false) by (now apply Nat.eqb_neq).
    split; intros w.
    + rewrite W4, Ms. unfold st3, add_cells; cbn [ds_wire]. unfold setf. unfold sym. rewrite Nb. fold ct cc.
      destruct (Nat.eqb_spec w (gtarget g)) as [->|Nt].
      * rewrite Nb, W1, Mt, app_nil_r. now rewrite <- app_assoc.
      * destruct (Nat.eqb_spec w (gcontrol g)) as [->|Nc].
        -- rewrite Nat.eqb_sym, Nb, W1, Mc, app_nil_r. now rewrite <- app_assoc.
        -- rewrite W1. destruct (memb w (spanl g)); rewrite ?app_nil_r; [now rewrite <- app_assoc | reflexivity].
    + rewrite C4, Ms. unfold st3, add_cells; cbn [ds_count]. unfold setf. cbn [length].
      destruct (Nat.eqb_spec w (gtarget g)) as [->|Nt].
      * rewrite Nb, C1, Mt, repeat_length. specialize (Le _ Mt). simpl. lia.
      * destruct (Nat.eqb_spec w (gcontrol g)) as [->|Nc].
        -- rewrite Nat.eqb_sym, Nb, C1, Mc, repeat_length. specialize (Le _ Mc). simpl. lia.
        -- rewrite C1. destruct (memb w (spanl g)) eqn:M; [specialize (Le _ M); rewrite repeat_length; simpl; lia | simpl; lia].
Qed.

(** ** the pictures seen as a table *)
Lemma row_cells_flush ids L st w : row_cells w (flush ids L st) = if memb w ids then Some (ds_wire st w ++ repeat Qw (L - ds_count st w))%list else None.
Proof.
  unfold flush. assert (E : memb w ids = memb w (rev ids)).
  { destruct (memb w ids) eqn:A; symmetry; [apply memb_spec; apply -> in_rev; now apply memb_spec|].
    destruct (memb w (rev ids)) eqn:B; [|reflexivity]. rewrite <- A. symmetry. apply memb_spec. apply in_rev. now apply memb_spec. }
  rewrite E. clear E. induction (rev ids) as [|x r IH]; [reflexivity|]. simpl. rewrite (Nat.eqb_sym w x).
  destruct (Nat.eqb_spec x w) as [->|N]; simpl; [reflexivity | exact IH].
Qed.
Lemma cell_at_old done x p w c : p < length done -> cell_at (done ++ [x]) p w c = cell_at done p w c.
Proof. intros L. unfold cell_at. now rewrite nth_error_app1 by exact L. Qed.
Lemma cell_at_new ids L st p w c : p = length (ds_done st) ->
  cell_at (ds_done st ++ [flush ids L st]) p w c = if memb w ids then nth_error (ds_wire st w ++ repeat Qw (L - ds_count st w)) c else None.
Proof.
  intros ->. unfold cell_at. rewrite nth_error_app2, Nat.sub_diag by lia. cbn [nth_error].
  rewrite row_cells_flush. destruct (memb w ids); reflexivity.
Qed.
Lemma cell_at_beyond ps p w c : length ps <= p -> cell_at ps p w c = None.
Proof. intros L. unfold cell_at. apply nth_error_None in L. now rewrite L. Qed.

Lemma shows_mono A B pc g : (forall p w c x, cell_at A p w c = Some x -> cell_at B p w c = Some x) -> Shows A pc g -> Shows B pc g.
Proof.
  intros H. unfold Shows. destruct (Nat.eqb (gtarget g) (gcontrol g)); [apply H|].
  intros (S1 & S2 & S3). split; [now apply H|]. split; [now apply H|]. intros w W. apply H. now apply S3.
Qed.

Section Inv.
Variables (gs : list gate) (ids : list nat) (maxd : nat).
Definition view (st : dstate) : list picture := (ds_done st ++ [flush ids 0 st])%list.
Definition Inv (k : nat) (pos : nat -> nat * nat) (st : dstate) : Prop :=
  (forall w, length (ds_wire st w) = ds_count st w) /\
  (forall i g, i < k -> nth_error gs i = Some g -> Shows (view st) (pos i) g) /\
  (forall p w c x, cell_at (view st) p w c = Some x -> x <> Qw ->
     exists i g, i < k /\ nth_error gs i = Some g /\ pos i = (p, c) /\ (gtarget g = w \/ gcontrol g = w)) /\
  (forall i j g h w, i < j -> j < k -> nth_error gs i = Some g -> nth_error gs j = Some h -> Spans g w -> Spans h w -> Before (pos i) (pos j)) /\
  (forall i g w, i < k -> nth_error gs i = Some g -> Spans g w -> Before (pos i) (length (ds_done st), ds_count st w)) /\
  (forall i, i < k -> fst (pos i) <= length (ds_done st)).

Lemma view_pad L st p w c x (Hl : forall w, length (ds_wire st w) = ds_count st w) :
  cell_at (view st) p w c = Some x -> cell_at (ds_done st ++ [flush ids L st]) p w c = Some x.
Proof.
  unfold view. destruct (Nat.lt_trichotomy p (length (ds_done st))) as [Lt|[E|Gt]].
  - rewrite !cell_at_old by exact Lt. auto.
  - rewrite !cell_at_new by exact E. destruct (memb w ids); [|discriminate]. simpl. rewrite app_nil_r. intros H.
    rewrite nth_error_app1; [exact H | apply nth_error_Some; congruence].
  - rewrite !cell_at_beyond by (rewrite app_length; simpl; lia). discriminate.
Qed.
Lemma view_pad_back L st p w c x : cell_at (ds_done st ++ [flush ids L st]) p w c = Some x -> x <> Qw -> cell_at (view st) p w c = Some x.
Proof.
  unfold view. destruct (Nat.lt_trichotomy p (length (ds_done st))) as [Lt|[E|Gt]].
  - rewrite !cell_at_old by exact Lt. auto.
  - rewrite !cell_at_new by exact E. destruct (memb w ids); [|discriminate]. simpl. rewrite app_nil_r. intros H N.
    destruct (Nat.lt_ge_cases c (length (ds_wire st w))) as [Lc|Gc]; [now rewrite nth_error_app1 in H by exact Lc|].
    rewrite nth_error_app2 in H by exact Gc. apply nth_error_In, repeat_spec in H. contradiction.
  - rewrite !cell_at_beyond by (rewrite app_length; simpl; lia). discriminate.
Qed.

Lemma inv_split k pos st g : Inv k pos st -> Inv k pos (split_picture ids maxd st g).
Proof.
  intros V. unfold split_picture. destruct (_ && _); [|exact V].
  destruct V as (Hl & Hs & Ho & Hb & Hn & Hd).
  set (st' := {| ds_done := (ds_done st ++ [flush ids maxd st])%list; ds_wire := fun _ => []; ds_count := fun _ => 0 |}).
  assert (Vw : forall p w c, cell_at (view st') p w c = cell_at (ds_done st') p w c).
  { intros p w c. unfold view. destruct (Nat.lt_trichotomy p (length (ds_done st'))) as [Lt|[E|Gt]].
    - now apply cell_at_old.
    - rewrite cell_at_new by exact E. rewrite (cell_at_beyond (ds_done st')) by lia. simpl. destruct (memb w ids); [|reflexivity]. destruct c; reflexivity.
    - rewrite (cell_at_beyond (ds_done st')) by lia; rewrite cell_at_beyond by (rewrite app_length; cbn [length]; lia). reflexivity. }
  assert (Ln : length (ds_done st') = S (length (ds_done st))) by (unfold st'; cbn [ds_done]; rewrite app_length; simpl; lia).
  split; [reflexivity|]. split; [|split; [|split; [exact Hb|split]]].
  - intros i g' Li Eg. apply (shows_mono (view st)); [|now apply Hs]. intros p w c x H. rewrite Vw. now apply view_pad.
  - intros p w c x H N. rewrite Vw in H. apply view_pad_back in H; [|exact N]. now apply Ho with x.
  - intros i g' w Li Eg Sg. left. cbn [fst]. rewrite Ln. specialize (Hd i Li). lia.
  - intros i Li. rewrite Ln. specialize (Hd i Li). lia.
Qed.

Lemma inv_draw k pos st g st' : nth_error gs k = Some g -> In (gtarget g) ids -> Inv k pos st -> draw_gate ids st g = Ok st' ->
  exists pos', Inv (S k) pos' st' /\ forall i, i < k -> pos' i = pos i.
Proof.
  intros Eg It V E. pose proof (draw_spec ids st g It) as DS. rewrite E in DS. destruct DS as ((_ & Hin) & Dn & DS). cbv zeta in DS.
  set (D := max_over (spanl g) (ds_count st)) in *. destruct DS as (Wr & Ct).
  destruct V as (Hl & Hs & Ho & Hb & Hn & Hd).
  set (pos' := fun i => if Nat.eqb i k then (length (ds_done st), D) else pos i).
  assert (Pk : pos' k = (length (ds_done st), D)) by (unfold pos'; now rewrite Nat.eqb_refl).
  assert (Po : forall i, i < k -> pos' i = pos i) by (intros i Li; unfold pos'; destruct (Nat.eqb_spec i k); [lia|reflexivity]).
  assert (Le : forall w, Spans g w -> ds_count st w <= D) by (intros w W; apply max_ge; now apply spanl_spec).
  exists pos'. split; [|exact Po].
  assert (Mono : forall p w c x, cell_at (view st) p w c = Some x -> cell_at (view st') p w c = Some x).
  { intros p w c x. unfold view. destruct (Nat.lt_trichotomy p (length (ds_done st))) as [Lt|[Ep|Gt]].
    - rewrite !cell_at_old by (rewrite ?Dn; exact Lt). now rewrite Dn.
    - rewrite !cell_at_new by (rewrite ?Dn; exact Ep). destruct (memb w ids); [|discriminate]. simpl. rewrite !app_nil_r, Wr. intros H.
      rewrite nth_error_app1; [exact H | apply nth_error_Some; congruence].
    - rewrite !cell_at_beyond by (rewrite ?app_length, ?Dn; simpl; lia). discriminate. }
  assert (New : forall w, Spans g w -> cell_at (view st') (length (ds_done st)) w D = Some (sym g w)).
  { intros w W. unfold view. rewrite cell_at_new by (now rewrite Dn). assert (M : memb w ids = true) by (apply memb_spec; now apply Hin). rewrite M. simpl. rewrite app_nil_r, Wr.
    assert (M2 : memb w (spanl g) = true) by (now apply spanl_memb). rewrite M2, app_assoc, nth_error_app2; rewrite app_length, repeat_length, Hl; specialize (Le w W); [|lia].
    replace (D - (ds_count st w + (D - ds_count st w))) with 0 by lia. reflexivity. }
  assert (Below : forall w, Spans g w -> ds_count st' w = S D) by (intros w W; rewrite Ct; assert (M2 : memb w (spanl g) = true) by (now apply spanl_memb); now rewrite M2).
  assert (Mon : forall w, ds_count st w <= ds_count st' w).
  { intros w. rewrite Ct. destruct (memb w (spanl g)) eqn:M; [|lia]. apply spanl_memb, Le in M. lia. }
  split; [|split; [|split; [|split; [|split]]]].
  - intros w. rewrite Wr, Ct, app_length, Hl. destruct (memb w (spanl g)) eqn:M; [|simpl; lia].
    apply spanl_memb, Le in M. rewrite app_length, repeat_length. simpl. lia.
  - intros i h Li Eh. destruct (Nat.eq_dec i k) as [->|N].
    + rewrite Pk. assert (h = g) by congruence. subst h. unfold Shows. cbn [fst snd].
      assert (St : Spans g (gtarget g)) by (unfold Spans; lia). assert (Sc : Spans g (gcontrol g)) by (unfold Spans; lia).
      pose proof (New _ St) as Nt. pose proof (New _ Sc) as Nc. unfold sym in Nt, Nc.
      destruct (Nat.eqb_spec (gtarget g) (gcontrol g)) as [Etc|Ntc]; [exact Nt|].
      rewrite Nat.eqb_refl in Nt, Nc. assert (F : Nat.eqb (gcontrol g) (gtarget g) = false) by (apply Nat.eqb_neq; lia). rewrite F in Nc.
      split; [exact Nt|]. split; [exact Nc|]. intros w W. rewrite New by (unfold Spans; lia). unfold sym.
      destruct (Nat.eqb_spec (gtarget g) (gcontrol g)); [lia|]. destruct (Nat.eqb_spec w (gtarget g)); [lia|]. destruct (Nat.eqb_spec w (gcontrol g)); [lia|reflexivity].
    + rewrite Po by lia. apply (shows_mono (view st)); [exact Mono | apply Hs; [lia|exact Eh]].
  - intros p w c x H N.
    destruct (cell_at (view st) p w c) as [y|] eqn:Cv.
    + pose proof (Mono _ _ _ _ Cv) as H2. assert (y = x) by congruence. subst y.
      destruct (Ho p w c x Cv N) as (i & h & Li & Eh & Pi & Wi). exists i, h. rewrite Po by lia. repeat split; try assumption; lia.
    + unfold view in Cv, H. destruct (Nat.lt_trichotomy p (length (ds_done st))) as [Lt|[Ep|Gt]].
      * rewrite cell_at_old in Cv by exact Lt. rewrite cell_at_old in H by (now rewrite Dn). rewrite Dn in H. congruence.
      * rewrite cell_at_new in Cv by exact Ep. rewrite cell_at_new in H by (now rewrite Dn). destruct (memb w ids); [|discriminate].
        simpl in Cv, H. rewrite app_nil_r in Cv, H. rewrite Wr in H. apply nth_error_None in Cv. rewrite nth_error_app2 in H by exact Cv.
        destruct (memb w (spanl g)) eqn:M; [|destruct (c - length (ds_wire st w)); discriminate].
        destruct (Nat.lt_ge_cases (c - length (ds_wire st w)) (D - ds_count st w)) as [Lc|Gc].
        -- rewrite nth_error_app1 in H by (now rewrite repeat_length). apply nth_error_In, repeat_spec in H. contradiction.
        -- rewrite nth_error_app2 in H by (now rewrite repeat_length). rewrite repeat_length in H.
           destruct (c - length (ds_wire st w) - (D - ds_count st w)) eqn:Ec; [|simpl in H; destruct n; discriminate].
           simpl in H. injection H as H. apply spanl_memb in M. specialize (Le w M). rewrite Hl in *. exists k, g. split; [lia|]. split; [exact Eg|].
           split; [rewrite Pk, Ep; f_equal; lia|]. subst x. unfold sym in N. unfold Spans in M.
           destruct (Nat.eqb_spec (gtarget g) (gcontrol g)); [left; lia|]. destruct (Nat.eqb_spec w (gtarget g)); [now left|]. destruct (Nat.eqb_spec w (gcontrol g)); [now right|]. now contradiction N.
      * rewrite cell_at_beyond in H by (rewrite app_length, Dn; simpl; lia). discriminate.
  - intros i j h h' w Lij Lj Eh Eh' Sh Sh'. destruct (Nat.eq_dec j k) as [->|N].
    + rewrite Pk, Po by lia. assert (h' = g) by congruence. subst h'. pose proof (Hn i h w Lij Eh Sh) as B. specialize (Le w Sh'). unfold Before in *. cbn [fst snd] in *. lia.
    + rewrite !Po by lia. apply (Hb i j h h' w); auto; lia.
  - intros i h w Li Eh Sh. rewrite Dn. destruct (Nat.eq_dec i k) as [->|N].
    + assert (h = g) by congruence. subst h. rewrite Pk, Below by exact Sh. right. cbn [fst snd]. lia.
    + rewrite Po by lia. assert (Lik : i < k) by lia. pose proof (Hn i h w Lik Eh Sh) as B. specialize (Mon w). unfold Before in *. cbn [fst snd] in *. lia.
  - intros i Li. rewrite Dn. destruct (Nat.eq_dec i k) as [->|N]; [rewrite Pk; simpl; lia | rewrite Po by lia; apply Hd; lia].
Qed.

Definition Rect (L : nat) (pic : picture) : Prop := map fst pic = rev ids /\ Forall (fun row => length (snd row) = L) pic.
Lemma flush_rect L st : (forall w, length (ds_wire st w) = ds_count st w) -> max_over ids (ds_count st) = L -> Rect L (flush ids L st).
Proof.
  intros Hl M. split; [unfold flush; rewrite map_map; apply map_id|]. unfold flush. apply Forall_forall. intros row I. apply in_map_iff in I. destruct I as (w & <- & I). cbn [snd].
  rewrite app_length, repeat_length, Hl. apply in_rev in I. pose proof (max_ge ids (ds_count st) w I). lia.
Qed.
Lemma rect_split st g : (forall w, length (ds_wire st w) = ds_count st w) -> Forall (Rect maxd) (ds_done st) -> Forall (Rect maxd) (ds_done (split_picture ids maxd st g)).
Proof.
  intros Hl F. unfold split_picture. destruct (Nat.eqb_spec (max_over ids (ds_count st)) maxd) as [M|]; cbn [andb]; [|exact F].
  destruct (_ || _); [|exact F]. cbn [ds_done]. apply Forall_app. split; [exact F|]. constructor; [now apply flush_rect|constructor].
Qed.

Definition step g st := draw_gate ids (split_picture ids maxd st g) g.
Definition init := {| ds_done := []; ds_wire := fun _ => []; ds_count := fun _ => 0 |}.
Lemma loop_inv rest : forall done pos st, gs = (done ++ rest)%list -> (forall g, In g gs -> In (gtarget g) ids) -> Inv (length done) pos st -> Forall (Rect maxd) (ds_done st) ->
  match foreach rest step st with
  | Ok st' => (exists pos', Inv (length gs) pos' st') /\ Forall (Rect maxd) (ds_done st') /\ Forall (ok_gate ids) rest
  | Throw _ => ~ Forall (ok_gate ids) rest
  end.
Proof.
  induction rest as [|g r IH]; intros done pos st Egs Hin V F.
  - simpl. split; [exists pos; rewrite Egs, app_nil_r; exact V|]. split; [exact F|constructor].
  - cbn [foreach]. unfold step at 1. assert (Ig : In (gtarget g) ids) by (apply Hin; rewrite Egs; apply in_app_iff; right; now left).
    pose proof (inv_split _ _ _ g V) as V2. assert (Hl : forall w, length (ds_wire st w) = ds_count st w) by apply V.
    pose proof (rect_split st g Hl F) as F2. set (st2 := split_picture ids maxd st g) in *.
    pose proof (draw_spec ids st2 g Ig) as DS. destruct (draw_gate ids st2 g) as [st3|] eqn:E; simpl.
    + destruct DS as (Ok' & Dn & _). destruct (inv_draw (length done) pos st2 g st3) as (pos' & V3 & _); auto.
      { rewrite Egs, nth_error_app2, Nat.sub_diag by lia. reflexivity. }
      specialize (IH (done ++ [g])%list pos' st3). rewrite <- app_assoc in IH. specialize (IH Egs Hin).
      rewrite app_length in IH. simpl in IH. rewrite Nat.add_1_r in IH. rewrite Dn in IH. specialize (IH V3 F2).
      destruct (foreach r step st3).
      * destruct IH as (A & B & C). split; [exact A|]. split; [exact B|]. constructor; assumption.
      * intros X. inversion X; subst. contradiction.
    + intros X. inversion X; subst. contradiction.
Qed.
Lemma init_inv : Inv 0 (fun _ => (0, 0)) init.
Proof.
  split; [reflexivity|]. split; [intros; lia|]. split.
  - intros p w c x H. exfalso. destruct p as [|p]; [|rewrite cell_at_beyond in H by (simpl; lia); discriminate].
    unfold view in H. rewrite cell_at_new in H by reflexivity. simpl in H. destruct (memb w ids); [|discriminate]. destruct c; discriminate.
  - split; [intros; lia|]. split; [intros; lia|]. intros; lia.
Qed.
Lemma final_faithful st pos L : Inv (length gs) pos st -> Faithful (ds_done st ++ [flush ids L st]) gs.
Proof.
  intros (Hl & Hs & Ho & Hb & Hn & Hd). exists pos. split; [|split].
  - intros k g Eg. apply (shows_mono (view st)); [intros; now apply view_pad | apply Hs; [apply nth_error_Some; congruence | exact Eg]].
  - intros p w c x H N. apply view_pad_back in H; [|exact N]. destruct (Ho _ _ _ _ H N) as (i & g & _ & A & B & C). exists i, g. auto.
  - intros i j g h w Lij Eg Eh Sg Sh. apply (Hb i j g h w); auto. apply nth_error_Some. congruence.
Qed.
(** with adjacent qubits the depth stays bounded *)
Lemma width_loop rest : 0 < maxd -> (forall g, In g rest -> In (gtarget g) ids /\ In (gcontrol g) ids /\ hi g <= S (lo g)) ->
  forall st, (forall w, ds_count st w <= maxd) ->
  match foreach rest step st with Ok st' => forall w, ds_count st' w <= maxd | Throw _ => True end.
Proof.
  intros Pm. induction rest as [|g r IH]; intros H st B; [exact B|]. cbn [foreach]. unfold step at 1.
  destruct (H g) as (It & Ic & Ad); [now left|].
  pose proof (draw_spec ids (split_picture ids maxd st g) g It) as DS.
  assert (B2 : (forall w, ds_count (split_picture ids maxd st g) w <= maxd) /\ ds_count (split_picture ids maxd st g) (gtarget g) < maxd /\ ds_count (split_picture ids maxd st g) (gcontrol g) < maxd).
  { unfold split_picture. pose proof (B (gtarget g)). pose proof (B (gcontrol g)).
    assert (Mx : max_over ids (ds_count st) <= maxd) by (apply max_le; intros; apply B).
    pose proof (max_ge ids (ds_count st) _ It). pose proof (max_ge ids (ds_count st) _ Ic).
    destruct (Nat.eqb_spec (max_over ids (ds_count st)) maxd) as [M|M]; cbn [andb]; [|split; [exact B|split; lia]].
    destruct (Nat.eqb_spec (ds_count st (gtarget g)) maxd); cbn [orb]; [simpl; repeat split; lia|].
    destruct (Nat.eqb_spec (ds_count st (gcontrol g)) maxd); cbn [orb]; [simpl; repeat split; lia|]. split; [exact B|split; lia]. }
  set (st2 := split_picture ids maxd st g) in *. destruct B2 as (B2 & Bt & Bc).
  destruct (draw_gate ids st2 g) as [st3|]; simpl; [|exact I].
  destruct DS as (_ & _ & _ & Ct). apply IH; [intros g' I'; apply H; now right|].
  intros w. rewrite Ct. destruct (memb w (spanl g)); [|apply B2].
  assert (max_over (spanl g) (ds_count st2) < maxd); [|lia]. destruct (max_in (spanl g) (ds_count st2)) as [->|(v & Iv & <-)]; [exact Pm|].
  apply spanl_spec in Iv. unfold Spans in Iv. unfold hi, lo in Ad. assert (v = gtarget g \/ v = gcontrol g) as [->| ->] by lia; assumption.
Qed.
End Inv.
