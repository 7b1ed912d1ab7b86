(** Independent specification of the gate labels: the matrix element <a|U|b> of the textbook
    one-qubit gates, and <ac at|U|bc bt> of the textbook two-qubit gates (control bit first).
    The angle [x] is the one the user passes (not the normalised one). *)
From Coq Require Import Reals String Bool.
From Verif Require Import CBase.
Local Open Scope C_scope.
Local Open Scope string_scope.

(** <a|b> *)
Definition same (a b : bool) : C := if Bool.eqb a b then C1 else C0.
(** Pauli matrices *)
Definition PX (a b : bool) : C := same a (negb b).
Definition PY (a b : bool) : C := match a, b with true, false => Ci | false, true => - Ci | _, _ => C0 end.
Definition PZ (a b : bool) : C := (if b then - C1 else C1) * same a b.
(** diag(1, e^{i x}) *)
Definition phase (x : R) (a b : bool) : C := (if b then Ccis x else C1) * same a b.
(** cos(x/2) 1 - i sin(x/2) P = exp(-i x P / 2) *)
Definition rot (P : bool -> bool -> C) (x : R) (a b : bool) : C :=
  RtoC (cos (x / 2)) * same a b - Ci * RtoC (sin (x / 2)) * P a b.

Definition textbook1 (label : string) (x : R) : option (bool -> bool -> C) :=
  if label =? "X" then Some PX
  else if label =? "Y" then Some PY
  else if label =? "Z" then Some PZ
  else if label =? "I" then Some same
  else if label =? "H" then Some (fun a b => RtoC (/ sqrt 2) * (PX a b + PZ a b))
  else if label =? "S" then Some (phase (PI / 2))
  else if label =? "T" then Some (phase (PI / 4))
  else if label =? "R" then Some (phase x)
  else if label =? "Rx" then Some (rot PX x)
  else if label =? "Ry" then Some (rot PY x)
  else if label =? "Rz" then Some (rot PZ x)
  else if label =? "V" then Some (fun a b => Ccis (PI / 4) * rot PX (PI / 2) a b)
  else None.

(** U applied when the control bit equals [v] *)
Definition when (v : bool) (U : bool -> bool -> C) (ac at_ bc bt : bool) : C :=
  same ac bc * (if Bool.eqb bc v then U at_ bt else same at_ bt).

Definition textbook2 (label : string) (x : R) : option (bool -> bool -> bool -> bool -> C) :=
  if label =? "cX" then Some (when true PX)
  else if label =? "CNOT" then Some (when true PX)
  else if label =? "acX" then Some (when false PX)
  else if label =? "aCNOT" then Some (when false PX)
  else if label =? "cY" then Some (when true PY)
  else if label =? "cZ" then Some (when true PZ)
  else if label =? "cR" then Some (when true (phase x))
  else if label =? "cRz" then Some (when true (rot PZ x))
  else if label =? "cV" then Some (when true (fun a b => Ccis (PI / 4) * rot PX (PI / 2) a b))
  else if label =? "SWAP" then Some (fun ac at_ bc bt => same ac bt * same at_ bc)
  else if label =? "A" then Some (fun ac at_ bc bt =>
    if Bool.eqb bc bt then same ac bc * same at_ bt            (* |00>, |11> unchanged *)
    else same ac (negb at_) *                                   (* |01>, |10> rotated *)
         (if bc then (if ac then - RtoC (cos x) else RtoC (sin x))
          else (if ac then RtoC (sin x) else RtoC (cos x))))
  else None.
