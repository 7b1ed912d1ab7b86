(** Model of src/qforte/utils/circuit_to_latex.py.

    The drawing is modelled as the list of quantikz pictures written to the file; a picture is
    the list of its rows in the order they are written, a row being the qubit and the cells
    that follow the row header (each " & ..." is one cell).  Preamble, headers and file
    handling are left out; when an exception is raised the file is left incomplete. *)
From Coq Require Import String List Arith Bool ZArith.
From Verif Require Import Result GateModel TaperModel.
Import ListNotations.
Local Open Scope nat_scope.
Local Open Scope string_scope.

(** \qw, \gate{id}, \targ{}, \ctrl{}, \ctrl{d}, \octrl{d} *)
Inductive cell := Qw | Box (id : string) | Targ | Dot | Ctrl (d : Z) | OCtrl (d : Z).
Definition picture := list (nat * list cell).
Record dstate := { ds_done : list picture; ds_wire : nat -> list cell; ds_count : nat -> nat }.
Definition setf {A} (f : nat -> A) (k : nat) (v : A) : nat -> A := fun w => if Nat.eqb w k then v else f w.
(** wires[w] += cells; gate_count[w] += number of cells *)
Definition add_cells (w : nat) (cs : list cell) (st : dstate) : dstate :=
  {| ds_done := ds_done st; ds_wire := setf (ds_wire st) w (ds_wire st w ++ cs)%list; ds_count := setf (ds_count st) w (ds_count st w + length cs) |}.
Definition max_over (ws : list nat) (count : nat -> nat) : nat := fold_left (fun m w => if Nat.ltb m (count w) then count w else m) ws 0.
(** the rows of one picture, every wire filled up to L cells (circuit_to_latex.py:121-128 and 181-190);
    the rows are written for reversed(list(qubit_ids)[1:]) and then list(qubit_ids)[0] *)
Definition flush (ids : list nat) (L : nat) (st : dstate) : picture :=
  map (fun w => (w, (ds_wire st w ++ repeat Qw (L - ds_count st w))%list)) (rev ids).
(** circuit_to_latex.py:103-133: start a new picture if a wire of the gate is full *)
Definition split_picture (ids : list nat) (maxd : nat) (st : dstate) (g : gate) : dstate :=
  if (Nat.eqb (max_over ids (ds_count st)) maxd) && (Nat.eqb (ds_count st (gtarget g)) maxd || Nat.eqb (ds_count st (gcontrol g)) maxd) then
    {| ds_done := (ds_done st ++ [flush ids maxd st])%list; ds_wire := fun _ => []; ds_count := fun _ => 0 |}
  else st.
(** circuit_to_latex.py:134-178 *)
Definition draw_gate (ids : list nat) (st : dstate) (g : gate) : res dstate :=
  let t := gtarget g in let c := gcontrol g in
  if Nat.eqb t c then Ok (add_cells t [Box (glabel g)] st)
  else
    let lo := if Nat.ltb c t then c else t in let hi := if Nat.ltb c t then t else c in
    let span := seq lo (hi + 1 - lo) in
    if existsb (fun w => negb (memb w ids)) span then Throw (PyError "KeyError")
    else
      let D := max_over span (ds_count st) in
      let st := fold_left (fun st w => add_cells w (repeat Qw (D - ds_count st w)) st) span st in
      if negb (existsb (String.eqb (glabel g)) ["cZ"; "aCNOT"; "acX"; "CNOT"; "cX"]) then Throw (PyError "ValueError")
      else
        let st := add_cells t [if String.eqb (glabel g) "cZ" then Dot else Targ] st in
        let d := (Z.of_nat c - Z.of_nat t)%Z in
        let st := add_cells c [if String.eqb (glabel g) "aCNOT" || String.eqb (glabel g) "acX" then OCtrl d else Ctrl d] st in
        Ok (fold_left (fun st w => add_cells w [Qw] st) (seq (S lo) (hi - S lo)) st).
(** circuit_to_latex.py:3-193; [order] is the iteration order of a Python set of ints *)
Definition circuit_to_latex (order : list nat -> list nat) (maxd : nat) (gs : list gate) : res (list picture) :=
  if Nat.eqb maxd 0 then Throw (PyError "ValueError")
  else
    let ids := order (nodup Nat.eq_dec (flat_map (fun g => [gtarget g; gcontrol g]) gs)) in
    do st <- foreach gs (fun g st => draw_gate ids (split_picture ids maxd st g) g) {| ds_done := []; ds_wire := fun _ => []; ds_count := fun _ => 0 |};
    match ids with
    | [] => Throw (PyError "ValueError")
    | _ =>
        let L := max_over ids (ds_count st) in
        Ok (if Nat.ltb 0 L then (ds_done st ++ [flush ids L st])%list else ds_done st)
    end.
