(** Model of src/qforte/utils/point_groups.py. *)
From Coq Require Import String Ascii List Arith NArith Bool.
From Verif Require Import Result.
Import ListNotations.
Local Open Scope string_scope.

(** str.lower() on ASCII strings *)
Definition lower_char (c : ascii) : ascii :=
  let n := nat_of_ascii c in if Nat.leb 65 n && Nat.leb n 90 then ascii_of_nat (n + 32) else c.
Fixpoint lower (s : string) : string :=
  match s with EmptyString => EmptyString | String c r => String (lower_char c) (lower r) end.
(** point_groups.py:19-28: the dictionary *)
Definition point_group_to_irreps : list (string * list string) :=
  [("c1", ["A"]);
   ("c2", ["A"; "B"]);
   ("ci", ["Ag"; "Au"]);
   ("cs", ["Ap"; "App"]);
   ("d2", ["A"; "B1"; "B2"; "B3"]);
   ("c2h", ["Ag"; "Bg"; "Au"; "Bu"]);
   ("c2v", ["A1"; "A2"; "B1"; "B2"]);
   ("d2h", ["Ag"; "B1g"; "B2g"; "B3g"; "Au"; "B1u"; "B2u"; "B3u"])].
Fixpoint dict_get {A} (k : string) (d : list (string * A)) : option A :=
  match d with [] => None | (k', v) :: r => if k =? k' then Some v else dict_get k r end.
(** point_groups.py:12-35 *)
Definition irreps_of_point_groups (point_group : string) : res (list string) :=
  match dict_get (lower point_group) point_group_to_irreps with
  | Some l => Ok l
  | None => Throw (PyError "ValueError")
  end.
(** point_groups.py:78-82: the body of the table that char_table prints; [irreps[k]] beyond
    the end raises IndexError.  (The printed layout is not modelled; the list type check of
    line 49 is the type of the arguments here.) *)
Definition table_row (irreps : list string) (idx1 : nat) : res (list string) :=
  (fix go (l : list nat) : res (list string) := match l with
   | [] => Ok []
   | idx2 :: r =>
       match nth_error irreps (N.to_nat (N.lxor (N.of_nat idx1) (N.of_nat idx2))) with
       | None => Throw (PyError "IndexError")
       | Some s => do t <- go r; Ok (s :: t)
       end end) (seq 0 (length irreps)).
Definition char_table (group : string) (irreps : list string) : res (list (list string)) :=
  if existsb (String.eqb (lower group)) ["c1"; "c2"; "ci"; "cs"; "d2"; "c2h"; "c2v"; "d2h"] then
    (fix go (l : list nat) : res (list (list string)) := match l with
     | [] => Ok []
     | idx1 :: r => do x <- table_row irreps idx1; do t <- go r; Ok (x :: t)
     end) (seq 0 (length irreps))
  else Throw (PyError "ValueError").
