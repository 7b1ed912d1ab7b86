(** Specification of circuit drawings. *)
From Coq Require Import String List Arith Bool ZArith.
From Verif Require Import GateModel LatexModel.
Import ListNotations.
Local Open Scope nat_scope.

(** cell in column c of the row of qubit w in picture p *)
Fixpoint row_cells (w : nat) (rows : picture) : option (list cell) :=
  match rows with [] => None | (v, cells) :: r => if Nat.eqb v w then Some cells else row_cells w r end.
Definition cell_at (pics : list picture) (p w c : nat) : option cell :=
  match nth_error pics p with
  | Some rows => match row_cells w rows with Some cells => nth_error cells c | None => None end
  | None => None
  end.
(** qubits between (and including) those of a gate *)
Definition Spans (g : gate) (w : nat) : Prop := Nat.min (gtarget g) (gcontrol g) <= w <= Nat.max (gtarget g) (gcontrol g).
(** the gate is drawn in column (snd pc) of picture (fst pc) *)
Definition Shows (pics : list picture) (pc : nat * nat) (g : gate) : Prop :=
  if Nat.eqb (gtarget g) (gcontrol g) then cell_at pics (fst pc) (gtarget g) (snd pc) = Some (Box (glabel g))
  else
    cell_at pics (fst pc) (gtarget g) (snd pc) = Some (if String.eqb (glabel g) "cZ" then Dot else Targ) /\
    cell_at pics (fst pc) (gcontrol g) (snd pc) =
      Some (if String.eqb (glabel g) "aCNOT" || String.eqb (glabel g) "acX" then OCtrl (Z.of_nat (gcontrol g) - Z.of_nat (gtarget g))
            else Ctrl (Z.of_nat (gcontrol g) - Z.of_nat (gtarget g))) /\
    forall w, Nat.min (gtarget g) (gcontrol g) < w < Nat.max (gtarget g) (gcontrol g) -> cell_at pics (fst pc) w (snd pc) = Some Qw.
(** earlier picture, or earlier column of the same picture *)
Definition Before (a b : nat * nat) : Prop := fst a < fst b \/ fst a = fst b /\ snd a < snd b.
(** every gate is drawn at its place; nothing else is drawn; gates whose wires overlap appear in
    the order of the circuit *)
Definition Faithful (pics : list picture) (gs : list gate) : Prop := exists pos : nat -> nat * nat,
  (forall k g, nth_error gs k = Some g -> Shows pics (pos k) g) /\
  (forall p w c x, cell_at pics p w c = Some x -> x <> Qw -> exists k g, nth_error gs k = Some g /\ pos k = (p, c) /\ (gtarget g = w \/ gcontrol g = w)) /\
  (forall i j g h w, i < j -> nth_error gs i = Some g -> nth_error gs j = Some h -> Spans g w -> Spans h w -> Before (pos i) (pos j)).
