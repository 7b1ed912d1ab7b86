(** C49: circuit drawings. *)
From Coq Require Import String List Arith Bool ZArith Lia.
From Verif Require Import Result GateModel OrderProofs TaperModel LatexModel LatexSpec LatexProofs.
Import ListNotations.
Local Open Scope nat_scope.

(** iteration order of a Python set: every element once *)
Definition SetOrder (order : list nat -> list nat) : Prop := forall l, NoDup l -> NoDup (order l) /\ forall w, In w (order l) <-> In w l.
(** some gate of the circuit acts on qubit w *)
Definition Touched (gs : list gate) (w : nat) : Prop := exists g, In g gs /\ (gtarget g = w \/ gcontrol g = w).
Definition Drawable (gs : list gate) (g : gate) : Prop :=
  (gtarget g <> gcontrol g -> In (glabel g) ["cZ"; "aCNOT"; "acX"; "CNOT"; "cX"]%string) /\ (forall w, Spans g w -> Touched gs w).
(** all the rows are equally long *)
Definition Rectangular (pic : picture) (width : nat) : Prop := forall row, In row pic -> length (snd row) = width.
Definition rows (pic : picture) : list nat := map fst pic.

Definition touched_ids gs := nodup Nat.eq_dec (flat_map (fun g => [gtarget g; gcontrol g]) gs).
Lemma touched_spec gs w : In w (touched_ids gs) <-> Touched gs w.
Proof.
  unfold touched_ids, Touched. rewrite nodup_In, in_flat_map. split; intros (g & I & H); exists g; (split; [exact I|]); simpl in *; tauto.
Qed.
Lemma drawable_ok order gs g : SetOrder order -> (ok_gate (order (touched_ids gs)) g <-> Drawable gs g).
Proof.
  intros So. destruct (So (touched_ids gs) (NoDup_nodup _ _)) as (_ & Hin). unfold ok_gate, Drawable, supported.
  assert (A : forall w, In w (order (touched_ids gs)) <-> Touched gs w) by (intros w; rewrite Hin; apply touched_spec).
  rewrite orb_true_iff, Nat.eqb_eq, existsb_exists.
  split; intros (H1 & H2); (split; [|intros w W; apply A; now apply H2]).
  - intros N. destruct H1 as [E|(x & I & E)]; [contradiction|]. apply String.eqb_eq in E. now rewrite E.
  - destruct (Nat.eq_dec (gtarget g) (gcontrol g)) as [E|N]; [now left|]. right. exists (glabel g). split; [now apply H1 | apply String.eqb_refl].
Qed.

Lemma loop_pos ids maxd gs st st' : gs <> [] -> (forall g, In g gs -> In (gtarget g) ids) -> foreach gs (step ids maxd) st = Ok st' -> 0 < max_over ids (ds_count st').
Proof.
  intros Ne It. destruct (exists_last Ne) as (r & g & ->). rewrite foreach_app. destruct (foreach r (step ids maxd) st) as [s1|]; simpl; [|discriminate].
  unfold step. assert (Ig : In (gtarget g) ids) by (apply It, in_app_iff; right; now left).
  pose proof (draw_spec ids (split_picture ids maxd s1 g) g Ig) as DS. destruct (draw_gate ids (split_picture ids maxd s1 g) g) as [s2|]; simpl; [|discriminate].
  intros H. injection H as <-. destruct DS as (_ & _ & _ & Ct). pose proof (max_ge ids (ds_count s2) (gtarget g) Ig) as M. rewrite Ct in M.
  assert (Mt : memb (gtarget g) (spanl g) = true) by (apply spanl_memb; unfold Spans; lia). rewrite Mt in M. lia.
Qed.
(** everything about a successful run, and exactly when it succeeds *)
Lemma latex_run order maxd gs : SetOrder order -> 0 < maxd -> gs <> [] ->
  let ids := order (touched_ids gs) in
  match circuit_to_latex order maxd gs with
  | Ok pics => (forall g, In g gs -> Drawable gs g) /\ Faithful pics gs /\ exists st,
      foreach gs (step ids maxd) init = Ok st /\ pics = (ds_done st ++ [flush ids (max_over ids (ds_count st)) st])%list /\
      (forall w, length (ds_wire st w) = ds_count st w) /\ Forall (Rect ids maxd) (ds_done st)
  | Throw _ => ~ (forall g, In g gs -> Drawable gs g)
  end.
Proof.
  intros So Pm Ne ids. unfold circuit_to_latex. fold (touched_ids gs). fold ids.
  destruct (So (touched_ids gs) (NoDup_nodup _ _)) as (Nd & Hin). fold ids in Nd, Hin.
  assert (A : forall w, In w ids <-> Touched gs w) by (intros w; rewrite Hin; apply touched_spec).
  assert (Em : Nat.eqb maxd 0 = false) by (apply Nat.eqb_neq; lia). rewrite Em. clear Em.
  assert (It : forall g, In g gs -> In (gtarget g) ids) by (intros g I; apply A; exists g; auto).
  pose proof (loop_inv gs ids maxd gs [] (fun _ => (0, 0)) init eq_refl It (init_inv gs ids) (Forall_nil _)) as L.
  pose proof (loop_pos ids maxd gs init) as LP.
  change (foreach gs (fun g st => draw_gate ids (split_picture ids maxd st g) g) {| ds_done := []; ds_wire := fun _ => []; ds_count := fun _ => 0 |}) with (foreach gs (step ids maxd) init).
  assert (Dk : Forall (ok_gate ids) gs <-> forall g, In g gs -> Drawable gs g).
  { rewrite Forall_forall. split; intros H g I; apply (drawable_ok order gs g So); now apply H. }
  destruct (foreach gs (step ids maxd) init) as [st|] eqn:E; simpl.
  - destruct L as ((pos & V) & F & O). specialize (LP st Ne It eq_refl).
    destruct ids as [|i0 r] eqn:Ei.
    { exfalso. destruct gs as [|g r]; [now apply Ne|]. destruct (It g); now left. }
    rewrite <- Ei in *. apply Nat.ltb_lt in LP. rewrite LP. split; [now apply Dk|].
    split; [now apply final_faithful with pos|]. exists st. split; [reflexivity|]. split; [reflexivity|]. split; [apply V | exact F].
  - intros H. apply L. now apply Dk.
Qed.
Lemma rect_rows ids L pic : Rect ids L pic -> rows pic = rev ids /\ Rectangular pic L.
Proof. intros (A & B). split; [exact A|]. intros row I. rewrite Forall_forall in B. now apply B. Qed.

(** The circuit is drawn: one picture after the other, each with the touched qubits as rows of
    equal length, every gate in its place and nothing else, in the order of the circuit. *)
Theorem C49_drawing_partial (order : list nat -> list nat) (maxd : nat) (gs : list gate) :
  SetOrder order -> 0 < maxd -> gs <> [] -> (forall g, In g gs -> Drawable gs g) ->
  exists pics, circuit_to_latex order maxd gs = Ok pics /\ Faithful pics gs /\
    forall pic, In pic pics -> (exists width, Rectangular pic width) /\ NoDup (rows pic) /\ forall w, In w (rows pic) <-> Touched gs w.
Proof.
  intros So Pm Ne Dr. pose proof (latex_run order maxd gs So Pm Ne) as R. cbv zeta in R.
  destruct (circuit_to_latex order maxd gs) as [pics|]; [|contradiction]. destruct R as (_ & Fa & st & _ & -> & Hl & F).
  eexists. split; [reflexivity|]. split; [exact Fa|]. set (ids := order (touched_ids gs)) in *.
  destruct (So (touched_ids gs) (NoDup_nodup _ _)) as (Nd & Hin). fold ids in Nd, Hin.
  intros pic I. assert (P : exists L, Rect ids L pic).
  { apply in_app_iff in I. destruct I as [I|[<-|[]]]; [exists maxd; rewrite Forall_forall in F; now apply F | eexists; now apply flush_rect]. }
  destruct P as (L & P). apply rect_rows in P. destruct P as (E & Rc). split; [exists L; exact Rc|]. rewrite E. split; [now apply NoDup_rev|].
  intros w. rewrite <- in_rev, Hin. apply touched_spec.
Qed.
(** The call fails in every other case (also for an empty circuit or a depth of 0). *)
Theorem C49_failure (order : list nat -> list nat) (maxd : nat) (gs : list gate) : SetOrder order ->
  ((exists pics, circuit_to_latex order maxd gs = Ok pics) <-> 0 < maxd /\ gs <> [] /\ forall g, In g gs -> Drawable gs g).
Proof.
  intros So. split.
  - intros (pics & E). destruct (Nat.eq_dec maxd 0) as [->|N]; [discriminate|]. split; [lia|].
    assert (Ne : gs <> []).
    { intros ->. unfold circuit_to_latex in E. apply Nat.eqb_neq in N. rewrite N in E. simpl in E.
      destruct (So [] (NoDup_nil _)) as (_ & H). destruct (order []) as [|x r]; [discriminate|]. destruct (H x) as (K & _). destruct K; now left. }
    split; [exact Ne|]. pose proof (latex_run order maxd gs So ltac:(lia) Ne) as R. cbv zeta in R. rewrite E in R. apply R.
  - intros (Pm & Ne & Dr). destruct (C49_drawing_partial order maxd gs So Pm Ne Dr) as (pics & E & _). now exists pics.
Qed.
(** If the qubits of the circuit are consecutive and the set is iterated in increasing order,
    the vertical line of a two-qubit gate ends on its target: the row that lies
    control - target rows below the one of the control is that of the target. *)
Theorem C49_lines_partial (order : list nat -> list nat) (maxd : nat) (gs : list gate) (pics : list picture) (a n : nat) :
  SetOrder order -> order (touched_ids gs) = seq a n -> circuit_to_latex order maxd gs = Ok pics ->
  forall pic g r, In pic pics -> In g gs -> nth_error (rows pic) r = Some (gcontrol g) ->
    (0 <= Z.of_nat r + (Z.of_nat (gcontrol g) - Z.of_nat (gtarget g)))%Z /\
    nth_error (rows pic) (Z.to_nat (Z.of_nat r + (Z.of_nat (gcontrol g) - Z.of_nat (gtarget g)))) = Some (gtarget g).
Proof.
  intros So Eo E pic g r I Ig Er. destruct (proj1 (C49_failure order maxd gs So)) as (Pm & Ne & Dr); [now exists pics|].
  pose proof (latex_run order maxd gs So Pm Ne) as R. cbv zeta in R. rewrite E in R. destruct R as (_ & _ & st & _ & -> & Hl & F).
  assert (P : rows pic = rev (seq a n)).
  { rewrite <- Eo. apply in_app_iff in I. destruct I as [I|[<-|[]]]; [rewrite Forall_forall in F; now apply F | unfold rows, flush; rewrite map_map; apply map_id]. }
  rewrite P in *. destruct (So (touched_ids gs) (NoDup_nodup _ _)) as (_ & Hin). rewrite Eo in Hin.
  assert (Tt : In (gtarget g) (seq a n)) by (apply Hin, touched_spec; exists g; auto). apply in_seq in Tt.
  assert (N : forall k, k < n -> nth_error (rev (seq a n)) k = Some (a + (n - 1 - k))).
  { intros k Lk. rewrite (nth_error_nth' _ 0) by (now rewrite rev_length, seq_length). f_equal.
    rewrite rev_nth by (now rewrite seq_length). rewrite seq_length, seq_nth by lia. lia. }
  assert (Lr : r < n) by (rewrite <- (seq_length n a), <- rev_length; apply nth_error_Some; congruence).
  rewrite (N r Lr) in Er. injection Er as Er. split; [lia|].
  rewrite N by lia. f_equal. lia.
Qed.
(** If every two-qubit gate acts on neighbouring qubits no picture is wider than asked for. *)
Theorem C49_depth_partial (order : list nat -> list nat) (maxd : nat) (gs : list gate) (pics : list picture) :
  SetOrder order -> circuit_to_latex order maxd gs = Ok pics ->
  (forall g, In g gs -> gtarget g <= S (gcontrol g) /\ gcontrol g <= S (gtarget g)) ->
  forall pic, In pic pics -> exists width, width <= maxd /\ Rectangular pic width.
Proof.
  intros So E Ad pic I. destruct (proj1 (C49_failure order maxd gs So)) as (Pm & Ne & Dr); [now exists pics|].
  pose proof (latex_run order maxd gs So Pm Ne) as R. cbv zeta in R. rewrite E in R. destruct R as (_ & _ & st & Es & -> & Hl & F).
  set (ids := order (touched_ids gs)) in *. destruct (So (touched_ids gs) (NoDup_nodup _ _)) as (_ & Hin). fold ids in Hin.
  apply in_app_iff in I. destruct I as [I|[<-|[]]].
  - exists maxd. split; [lia|]. rewrite Forall_forall in F. apply (rect_rows ids). now apply F.
  - exists (max_over ids (ds_count st)). split; [|now apply (rect_rows ids), flush_rect].
    pose proof (width_loop ids maxd gs Pm) as W. specialize (W ltac:(intros g Ig; split; [apply Hin, touched_spec; exists g; auto | split; [apply Hin, touched_spec; exists g; auto | unfold hi, lo; destruct (Ad g Ig); lia]]) init ltac:(simpl; lia)).
    rewrite Es in W. apply max_le. intros w _. apply W.
Qed.

(** ** What fails *)
Definition gCX (t c : nat) : gate := mkGate "cX" t c m_cX None.
(** increasing iteration order (CPython, for sets of small consecutive integers) *)
Definition increasing (l : list nat) : list nat := filter (fun w => memb w l) (seq 0 (S (list_max l))).
Lemma increasing_order : SetOrder increasing.
Proof.
  intros l Nd. split; [apply NoDup_filter, seq_NoDup|]. intros w. unfold increasing. rewrite filter_In, memb_spec, in_seq. split; [tauto|].
  intros I. split; [|exact I]. assert (M : w <= list_max l); [|lia]. revert w I. induction l as [|x r IH]; intros w I; [destruct I|].
  simpl. inversion Nd; subst. destruct I as [->|I]; [lia | specialize (IH H2 w I); lia].
Qed.
Lemma increasing_ext l l' : (forall w, In w l <-> In w l') -> increasing l = increasing l'.
Proof.
  intros H. unfold increasing. assert (L : forall a b : list nat, (forall w, In w a -> In w b) -> list_max a <= list_max b).
  { intros a b S. apply list_max_le, Forall_forall. intros x I. pose proof (proj1 (list_max_le b (list_max b)) (le_n _)) as F. rewrite Forall_forall in F. apply F. now apply S. }
  assert (E : list_max l = list_max l') by (apply Nat.le_antisymm; apply L; intros w; apply H). rewrite E. apply filter_ext. intros w.
  destruct (memb w l) eqn:A; symmetry; [apply memb_spec, H, memb_spec; exact A|]. destruct (memb w l') eqn:B; [|reflexivity]. rewrite <- A. symmetry. apply memb_spec, H, memb_spec. exact B.
Qed.
(** circuits that cannot be drawn *)
Theorem C49_every_circuit_refuted (order : list nat -> list nat) : SetOrder order ->
  (forall maxd, circuit_to_latex order maxd [] = Throw (PyError "ValueError")) /\
  circuit_to_latex order 20 [mkGate "SWAP" 0 1 m_SWAP None] = Throw (PyError "ValueError") /\
  circuit_to_latex order 20 [gCX 2 0] = Throw (PyError "KeyError").
Proof.
  intros So. assert (memT : forall l w, NoDup l -> memb w (order l) = memb w l).
  { intros l w Nd. destruct (So l Nd) as (_ & H). destruct (memb w l) eqn:A; [apply memb_spec, H, memb_spec; exact A|].
    destruct (memb w (order l)) eqn:B; [|reflexivity]. rewrite <- A. symmetry. apply memb_spec, H, memb_spec. exact B. }
  split; [|split].
  - intros maxd. unfold circuit_to_latex. destruct (Nat.eqb maxd 0); [reflexivity|]. simpl.
    destruct (So [] (NoDup_nil _)) as (_ & H). destruct (order []) as [|x r]; [reflexivity|]. destruct (H x) as (K & _). destruct K; now left.
  - unfold circuit_to_latex. simpl. assert (Nd : NoDup [0; 1]) by (repeat constructor; simpl; intuition lia). unfold split_picture. simpl. rewrite andb_false_r. unfold draw_gate. simpl.
    rewrite !memT by exact Nd. reflexivity.
  - unfold circuit_to_latex. simpl. assert (Nd : NoDup [2; 0]) by (repeat constructor; simpl; intuition lia). unfold split_picture. simpl. rewrite andb_false_r. unfold draw_gate. simpl.
    rewrite !memT by exact Nd. reflexivity.
Qed.
(** a picture can be wider than max_circuit_depth_per_tikz *)
Theorem C49_depth_refuted : exists pic, circuit_to_latex increasing 1 [gX 1; gCX 0 2] = Ok [pic] /\ Rectangular pic 2.
Proof.
  eexists. split; [vm_compute; reflexivity|]. intros row I. simpl in I. intuition (subst; reflexivity).
Qed.
(** ... without any bound: once the limit is exceeded no new picture is started *)
Theorem C49_depth_unbounded_refuted (n : nat) : exists pic, circuit_to_latex increasing 1 ([gX 1; gCX 0 2] ++ repeat (gX 0) n) = Ok [pic] /\ Rectangular pic (2 + n).
Proof.
  assert (Ids : increasing (touched_ids ([gX 1; gCX 0 2] ++ repeat (gX 0) n)) = [0; 1; 2]).
  { change [0; 1; 2] with (increasing [0; 1; 2]). apply increasing_ext. intros w. rewrite touched_spec. unfold Touched. split.
    - intros (g & I & H). apply in_app_iff in I. destruct I as [[<-|[<-|[]]]|I]; [| |apply repeat_spec in I; subst g]; simpl in *; lia.
    - intros [<-|[<-|[<-|[]]]]; [exists (gCX 0 2) | exists (gX 1) | exists (gCX 0 2)]; simpl; tauto. }
  assert (Ru : forall n, exists st, foreach ([gX 1; gCX 0 2] ++ repeat (gX 0) n) (step [0; 1; 2] 1) init = Ok st /\ ds_done st = [] /\ ds_count st 0 = 2 + n /\ ds_count st 1 = 2 /\ ds_count st 2 = 2 /\ forall w, length (ds_wire st w) = ds_count st w).
  { clear. induction n as [|n (st & E & Dn & C0 & C1 & C2 & Hl)].
    - eexists. split; [reflexivity|]. repeat split. intros w. destruct w as [|[|[|w]]]; reflexivity.
    - replace (repeat (gX 0) (S n)) with (repeat (gX 0) n ++ [gX 0])%list by (clear; induction n; [reflexivity|simpl in *; now rewrite IHn]).
      rewrite app_assoc, foreach_app, E. cbn [bind foreach]. unfold step, split_picture.
      assert (M : 2 <= max_over [0; 1; 2] (ds_count st)) by (rewrite <- C1; apply max_ge; simpl; tauto).
      destruct (Nat.eqb_spec (max_over [0; 1; 2] (ds_count st)) 1); [lia|]. cbn [andb].
      unfold draw_gate. cbn [gX gtarget gcontrol glabel Nat.eqb bind]. eexists. split; [reflexivity|]. unfold add_cells, setf. cbn [ds_done ds_count ds_wire Nat.eqb].
      split; [exact Dn|]. split; [rewrite C0; simpl; lia|]. split; [exact C1|]. split; [exact C2|]. intros w. destruct (Nat.eqb_spec w 0) as [->|]; [rewrite app_length, Hl; reflexivity | apply Hl]. }
  destruct (Ru n) as (st & E & Dn & C0 & C1 & C2 & Hl). unfold circuit_to_latex. fold (touched_ids ([gX 1; gCX 0 2] ++ repeat (gX 0) n)). rewrite Ids.
  change (Nat.eqb 1 0) with false. cbv iota.
  change (foreach ([gX 1; gCX 0 2] ++ repeat (gX 0) n) (fun g st => draw_gate [0; 1; 2] (split_picture [0; 1; 2] 1 st g) g) {| ds_done := []; ds_wire := fun _ => []; ds_count := fun _ => 0 |}) with (foreach ([gX 1; gCX 0 2] ++ repeat (gX 0) n) (step [0; 1; 2] 1) init).
  rewrite E. cbn [bind]. assert (M : max_over [0; 1; 2] (ds_count st) = 2 + n).
  { apply Nat.le_antisymm; [apply max_le; intros w [<-|[<-|[<-|[]]]]; lia | rewrite <- C0; apply max_ge; now left]. }
  rewrite M, Dn. cbn [Nat.add Nat.ltb Nat.leb app]. eexists. split; [reflexivity|]. apply (rect_rows [0; 1; 2]). now apply flush_rect.
Qed.
(** CPython iterates {7, 8} as 8, 7; the rows are then upside down and the line of the gate
    leaves the picture *)
Theorem C49_lines_refuted : exists order pic, SetOrder order /\ order [8; 7] = [8; 7] /\
  circuit_to_latex order 20 [gCX 8 7] = Ok [pic] /\ nth_error (rows pic) 0 = Some 7 /\ cell_at [pic] 0 7 0 = Some (Ctrl (-1)).
Proof.
  exists (fun l => l). eexists. split; [intros l Nd; split; [exact Nd|tauto]|]. split; [reflexivity|]. split; [vm_compute; reflexivity|]. split; reflexivity.
Qed.

(** the hypotheses hold for a circuit that is split into two pictures *)
Example C49_example : exists p q, circuit_to_latex increasing 2 [gX 0; gCX 0 2; mkGate "Z" 1 1 m_Z None; mkGate "cZ" 1 2 m_cZ None] = Ok [p; q] /\
  (forall g, In g [gX 0; gCX 0 2; mkGate "Z" 1 1 m_Z None; mkGate "cZ" 1 2 m_cZ None] -> Drawable [gX 0; gCX 0 2; mkGate "Z" 1 1 m_Z None; mkGate "cZ" 1 2 m_cZ None] g) /\
  cell_at [p; q] 0 2 1 = Some (Ctrl 2) /\ cell_at [p; q] 0 1 1 = Some Qw /\ cell_at [p; q] 0 0 1 = Some Targ /\ cell_at [p; q] 1 1 0 = Some (Box "Z") /\ cell_at [p; q] 1 1 1 = Some Dot.
Proof.
  do 2 eexists. assert (E : circuit_to_latex increasing 2 [gX 0; gCX 0 2; mkGate "Z" 1 1 m_Z None; mkGate "cZ" 1 2 m_cZ None] =
    Ok [[(2, [Qw; Ctrl 2]); (1, [Qw; Qw]); (0, [Box "X"; Targ])]; [(2, [Qw; Ctrl 1]); (1, [Box "Z"; Dot]); (0, [Qw; Qw])]]) by (vm_compute; reflexivity).
  split; [exact E|]. split; [|repeat split; reflexivity].
  destruct (proj1 (C49_failure increasing 2 [gX 0; gCX 0 2; mkGate "Z" 1 1 m_Z None; mkGate "cZ" 1 2 m_cZ None] increasing_order)) as (_ & _ & D); [eexists; exact E | exact D].
Qed.
Print Assumptions C49_drawing_partial.
Print Assumptions C49_failure.
Print Assumptions C49_lines_partial.
Print Assumptions C49_depth_partial.
Print Assumptions C49_every_circuit_refuted.
Print Assumptions C49_depth_unbounded_refuted.
Print Assumptions C49_lines_refuted.
