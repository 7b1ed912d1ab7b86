(** Specification vocabulary for adaptive ansatz growth (C46, C47).  An iteration measures a
    weight for each candidate, adds some candidates with amplitude zero and re-optimises. *)
From Coq Require Import Reals List Arith NArith Bool Permutation Sorted.
Import ListNotations.
Local Open Scope R_scope.

Definition total {A} (w : A -> R) (l : list A) : R := fold_right (fun a s => w a + s) 0 l.
(** [sel] are the candidates above the cumulative threshold T: what is left out weighs at most
    T in total, contains nothing heavier than a selected candidate, and could not take one
    more selected candidate *)
Definition AboveCumulative {A} (w : A -> R) (T : R) (candidates sel : list A) : Prop :=
  exists rest, Permutation (rest ++ sel) candidates /\ (forall a b, In a rest -> In b sel -> w a <= w b) /\
    total w rest <= T /\ forall b, In b sel -> T < total w rest + w b.
Definition Ascending {A} (w : A -> R) (l : list A) : Prop := StronglySorted (fun a b => w a <= w b) l.
Definition Descending {A} (w : A -> R) (l : list A) : Prop := StronglySorted (fun a b => w b <= w a) l.
(** first position of the largest magnitude *)
Definition Largest (g : list R) (m : N) : Prop := exists i, m = N.of_nat i /\ (i < length g)%nat /\
  (forall j, (j < length g)%nat -> Rabs (nth j g 0) <= Rabs (nth i g 0)) /\ forall j, (j < i)%nat -> Rabs (nth j g 0) < Rabs (nth i g 0).
Definition norm (g : list R) : R := sqrt (total (fun x => x * x) g).

(** histories of ADAPT: iteration k measures [grad k], must not be converged, appends the
    selected operators and replaces all amplitudes by the optimiser's *)
Section Adapt.
Variables (thresh : R) (grad : nat -> list N -> list R -> list R) (solve : nat -> list N -> list R -> R * list R * nat).
Variable Select : list R -> list N -> Prop.
Inductive Adapted : nat -> list N -> list R -> list R -> Prop :=
| adapted_start : Adapted 0 [] [] []
| adapted_step k tops tamps es new : Adapted k tops tamps es ->
    Rabs thresh <= norm (grad k tops tamps) -> Select (grad k tops tamps) new ->
    let r := solve k (tops ++ new)%list (tamps ++ repeat 0 (length new))%list in
    Adapted (S k) (tops ++ new)%list (snd (fst r)) (es ++ [fst (fst r)])%list.
End Adapt.

(** histories of SPQE: iteration k (from 1) puts new operators in front *)
Section Spqe.
Variables (weight : nat -> list nat -> list R -> nat -> R) (solve : nat -> list nat -> list R -> R * list R * nat).
Variable Select : (nat -> R) -> list nat -> list nat -> Prop.
Inductive Selected : nat -> list nat -> list R -> list R -> Prop :=
| selected_start : Selected 0 [] [] []
| selected_step k tops tamps es new : Selected k tops tamps es -> Select (weight (S k) tops tamps) tops new ->
    let r := solve (S k) (new ++ tops)%list (repeat 0 (length new) ++ tamps)%list in
    Selected (S k) (new ++ tops)%list (snd (fst r)) (es ++ [fst (fst r)])%list.
End Spqe.
(** the pool positions not yet used *)
Definition unused (size : nat) (tops : list nat) : list nat := filter (fun p => negb (existsb (Nat.eqb p) tops)) (seq 0 size).
