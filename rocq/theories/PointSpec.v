(** Independent specification: the characters (true = +1, false = -1) of the irreducible
    representations of the Abelian point groups, for the operations in the usual order
    (c2: E C2; ci: E i; cs: E s_h; d2: E C2z C2y C2x; c2h: E C2 i s_h; c2v: E C2 s_xz s_yz;
    d2h: E C2z C2y C2x i s_xy s_xz s_yz). *)
From Coq Require Import String List Bool.
Import ListNotations.
Local Open Scope string_scope.

Definition tt_ := true. Definition ff := false.
Definition characters (group : string) : list (string * list bool) :=
  if group =? "c1" then [("A", [true])]
  else if group =? "c2" then [("A", [tt_; tt_]); ("B", [tt_; ff])]
  else if group =? "ci" then [("Ag", [tt_; tt_]); ("Au", [tt_; ff])]
  else if group =? "cs" then [("Ap", [tt_; tt_]); ("App", [tt_; ff])]
  else if group =? "d2" then
    [("A", [tt_; tt_; tt_; tt_]); ("B1", [tt_; tt_; ff; ff]); ("B2", [tt_; ff; tt_; ff]); ("B3", [tt_; ff; ff; tt_])]
  else if group =? "c2h" then
    [("Ag", [tt_; tt_; tt_; tt_]); ("Au", [tt_; tt_; ff; ff]); ("Bg", [tt_; ff; tt_; ff]); ("Bu", [tt_; ff; ff; tt_])]
  else if group =? "c2v" then
    [("A1", [tt_; tt_; tt_; tt_]); ("A2", [tt_; tt_; ff; ff]); ("B1", [tt_; ff; tt_; ff]); ("B2", [tt_; ff; ff; tt_])]
  else if group =? "d2h" then
    [("Ag", [tt_; tt_; tt_; tt_; tt_; tt_; tt_; tt_]); ("B1g", [tt_; tt_; ff; ff; tt_; tt_; ff; ff]);
     ("B2g", [tt_; ff; tt_; ff; tt_; ff; tt_; ff]); ("B3g", [tt_; ff; ff; tt_; tt_; ff; ff; tt_]);
     ("Au", [tt_; tt_; tt_; tt_; ff; ff; ff; ff]); ("B1u", [tt_; tt_; ff; ff; ff; ff; tt_; tt_]);
     ("B2u", [tt_; ff; tt_; ff; ff; tt_; ff; tt_]); ("B3u", [tt_; ff; ff; tt_; ff; tt_; tt_; ff])]
  else [].
(** product of one-dimensional characters: product of signs, operation by operation *)
Definition char_mul (a b : list bool) : list bool := map (fun p => Bool.eqb (fst p) (snd p)) (combine a b).
(** the irrep [s] of [group] has the character [c] *)
Definition has_character (group s : string) (c : list bool) : Prop := In (s, c) (characters group).
