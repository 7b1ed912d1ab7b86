(** Model of src/qforte/gate.{h,cc} and src/qforte/make_gate.cc *)
From Coq Require Import Reals String Ascii List Arith Bool ZArith.
From Verif Require Import CBase Result Bits Spec.
Import ListNotations.
Local Open Scope R_scope.

(** gate.h:18-43 *)
Inductive gtype :=
| TX | TY | TZ | TH | TR | TRx | TRy | TRz | TV | TadjV | TS | TT | TI | TA
| TcX | TacX | TcY | TcZ | TcR | TcV | TadjcV | TcRz | TSWAP | TUndefined.

Definition gtype_eqb (a b : gtype) : bool :=
  match a, b with
  | TX,TX | TY,TY | TZ,TZ | TH,TH | TR,TR | TRx,TRx | TRy,TRy | TRz,TRz | TV,TV | TadjV,TadjV
  | TS,TS | TT,TT | TI,TI | TA,TA | TcX,TcX | TacX,TacX | TcY,TcY | TcZ,TcZ | TcR,TcR | TcV,TcV
  | TadjcV,TadjcV | TcRz,TcRz | TSWAP,TSWAP | TUndefined,TUndefined => true
  | _, _ => false
  end.

Local Open Scope string_scope.

(** gate.cc:221-236 [Gate::mapLabelToType] *)
Definition mapLabelToType (l : string) : gtype :=
  if l =? "X" then TX else if l =? "Y" then TY else if l =? "Z" then TZ
  else if l =? "H" then TH else if l =? "R" then TR else if l =? "Rx" then TRx
  else if l =? "Ry" then TRy else if l =? "Rz" then TRz else if l =? "V" then TV
  else if l =? "S" then TS else if l =? "T" then TT else if l =? "I" then TI
  else if l =? "A" then TA else if l =? "CNOT" then TcX else if l =? "cX" then TcX
  else if l =? "aCNOT" then TacX else if l =? "acX" then TacX else if l =? "cY" then TcY
  else if l =? "cZ" then TcZ else if l =? "cR" then TcR else if l =? "cV" then TcV
  else if l =? "cRz" then TcRz else if l =? "SWAP" then TSWAP else if l =? "adj(V)" then TadjV
  else if l =? "adj(cV)" then TadjcV else TUndefined.

(** gate.h class Gate: label_, target_, control_, gate_ (4x4), parameter_
    (optional pair: value, minus-on-adjoint flag).  type_ is always
    mapLabelToType(label_) (gate.cc:12-21), so it is computed. *)
Record gate := mkGate {
  glabel : string;
  gtarget : nat;
  gcontrol : nat;
  gmat : mat;
  gparam : option (R * bool)
}.

Definition gate_type (g : gate) : gtype := mapLabelToType (glabel g).
(** gate.cc:133 *)
Definition gnqubits (g : gate) : nat := if Nat.eqb (gtarget g) (gcontrol g) then 1 else 2.
(** gate.cc:103-111 *)
Definition has_parameter (g : gate) : bool := match gparam g with Some _ => true | None => false end.
Definition parameter (g : gate) : option R := option_map fst (gparam g).
Definition minus_parameter_on_adjoint (g : gate) : bool :=
  match gparam g with Some (_, b) => b | None => false end.

(** a C++ brace-initialised [complex gate[4][4]]: missing entries are 0 *)
Definition mk44 (rows : list (list C)) : mat := fun i j => nth j (nth i rows []) C0.

(** std::fmod(x, p) = x - p * trunc(x / p) *)
Definition Rtrunc (x : R) : Z := if Rle_dec 0 x then Int_part x else (- Int_part (- x))%Z.
Definition fmod (x p : R) : R := x - p * IZR (Rtrunc (x / p)).

(** make_gate.cc:7-16 *)
Definition normalize_angle (angle period : R) : R :=
  let angle := fmod angle period in
  if Rltb angle (- period / 2) then angle + period
  else if Rltb (period / 2) angle then angle - period
  else angle.

(** matrices of make_gate.cc:18-235; [onei * x] exponentials are [Ccis x] *)
Definition m_X : mat := mk44 [[C0; C1]; [C1; C0]].
Definition m_Y : mat := mk44 [[C0; (- Ci)%C]; [Ci; C0]].
Definition m_Z : mat := mk44 [[C1; C0]; [C0; (- C1)%C]].
Definition m_H : mat :=
  let c := RtoC (1 / sqrt 2) in mk44 [[c; c]; [c; (- c)%C]].
Definition m_R (p : R) : mat := mk44 [[C1; C0]; [C0; Ccis p]].
Definition m_Rx (p : R) : mat :=
  let a := RtoC (cos (0.5 * p)) in let b := (Ci * RtoC (sin (0.5 * p)))%C in
  mk44 [[a; (- b)%C]; [(- b)%C; a]].
Definition m_Ry (p : R) : mat :=
  let a := RtoC (cos (0.5 * p)) in let b := RtoC (sin (0.5 * p)) in
  mk44 [[a; (- b)%C]; [b; a]].
Definition m_Rz (p : R) : mat :=
  mk44 [[Ccis (- (0.5 * p)); C0]; [C0; Ccis (0.5 * p)]].
Definition m_V : mat :=
  let a := mkC 0.5 0.5 in let b := mkC 0.5 (-0.5) in mk44 [[a; b]; [b; a]].
Definition m_S : mat := mk44 [[C1; C0]; [C0; Ci]].
Definition m_T : mat := mk44 [[C1; C0]; [C0; (RtoC (1 / sqrt 2) * (C1 + Ci))%C]].
Definition m_I : mat := mk44 [[C1; C0]; [C0; C1]].
Definition m_A (p : R) : mat :=
  let c := RtoC (cos p) in let s := RtoC (sin p) in
  mk44 [[C1; C0; C0; C0]; [C0; c; s; C0]; [C0; s; (- c)%C; C0]; [C0; C0; C0; C1]].
Definition m_cX : mat := mk44 [[C1; C0; C0; C0]; [C0; C1; C0; C0]; [C0; C0; C0; C1]; [C0; C0; C1; C0]].
Definition m_acX : mat := mk44 [[C0; C1; C0; C0]; [C1; C0; C0; C0]; [C0; C0; C1; C0]; [C0; C0; C0; C1]].
Definition m_cY : mat := mk44 [[C1; C0; C0; C0]; [C0; C1; C0; C0]; [C0; C0; C0; (- Ci)%C]; [C0; C0; Ci; C0]].
Definition m_cZ : mat := mk44 [[C1; C0; C0; C0]; [C0; C1; C0; C0]; [C0; C0; C1; C0]; [C0; C0; C0; (- C1)%C]].
Definition m_cR (p : R) : mat :=
  mk44 [[C1; C0; C0; C0]; [C0; C1; C0; C0]; [C0; C0; C1; C0]; [C0; C0; C0; Ccis p]].
Definition m_cV : mat :=
  let a := mkC 0.5 0.5 in let b := mkC 0.5 (-0.5) in
  mk44 [[C1; C0; C0; C0]; [C0; C1; C0; C0]; [C0; C0; a; b]; [C0; C0; b; a]].
Definition m_cRz (p : R) : mat :=
  mk44 [[C1; C0; C0; C0]; [C0; C1; C0; C0]; [C0; C0; Ccis (- (0.5 * p)); C0]; [C0; C0; C0; Ccis (0.5 * p)]].
Definition m_SWAP : mat :=
  mk44 [[C1; C0; C0; C0]; [C0; C0; C1; C0]; [C0; C1; C0; C0]; [C0; C0; C0; C1]].

(** make_gate.cc:18-235 [make_gate] *)
Definition make_gate (type : string) (target control : nat) (param : R) : res gate :=
  if Nat.eqb target control then
    if type =? "X" then Ok (mkGate type target control m_X None)
    else if type =? "Y" then Ok (mkGate type target control m_Y None)
    else if type =? "Z" then Ok (mkGate type target control m_Z None)
    else if type =? "H" then Ok (mkGate type target control m_H None)
    else if type =? "R" then
      let p := normalize_angle param (2 * PI) in
      Ok (mkGate type target control (m_R p) (Some (p, true)))
    else if type =? "Rx" then
      let p := normalize_angle param (4 * PI) in
      Ok (mkGate type target control (m_Rx p) (Some (p, true)))
    else if type =? "Ry" then
      let p := normalize_angle param (4 * PI) in
      Ok (mkGate type target control (m_Ry p) (Some (p, true)))
    else if type =? "Rz" then
      let p := normalize_angle param (4 * PI) in
      Ok (mkGate type target control (m_Rz p) (Some (p, true)))
    else if type =? "V" then Ok (mkGate type target control m_V None)
    else if type =? "S" then Ok (mkGate type target control m_S None)
    else if type =? "T" then Ok (mkGate type target control m_T None)
    else if type =? "I" then Ok (mkGate type target control m_I None)
    else Throw InvalidArg
  else
    if type =? "A" then
      let p := normalize_angle param (2 * PI) in
      Ok (mkGate type target control (m_A p) (Some (p, false)))
    else if (type =? "cX") || (type =? "CNOT") then Ok (mkGate type target control m_cX None)
    else if (type =? "acX") || (type =? "aCNOT") then Ok (mkGate type target control m_acX None)
    else if type =? "cY" then Ok (mkGate type target control m_cY None)
    else if type =? "cZ" then Ok (mkGate type target control m_cZ None)
    else if type =? "cR" then
      let p := normalize_angle param (2 * PI) in
      Ok (mkGate type target control (m_cR p) (Some (p, true)))
    else if type =? "cV" then Ok (mkGate type target control m_cV None)
    else if type =? "cRz" then
      let p := normalize_angle param (4 * PI) in
      Ok (mkGate type target control (m_cRz p) (Some (p, true)))
    else if type =? "SWAP" then Ok (mkGate type target control m_SWAP None)
    else Throw InvalidArg.

(** make_gate.cc:237-256 [make_control_gate] *)
Definition make_control_gate (control : nat) (U : gate) : res gate :=
  let target := gtarget U in
  if Nat.eqb target control then Throw InvalidArg
  else
    let m := gmat U in
    Ok (mkGate "cU" target control
          (mk44 [[C1; C0; C0; C0]; [C0; C1; C0; C0];
                 [C0; C0; m 0%nat 0%nat; m 0%nat 1%nat]; [C0; C0; m 1%nat 0%nat; m 1%nat 1%nat]])
          (match gparam U with
           | Some (p, b) => Some (p, b)
           | None => None
           end)).

Definition idx4 : list nat := [0; 1; 2; 3]%nat.

(** gate.cc:135-179 [Gate::adjoint] *)
Definition self_adjoint (m : mat) : bool :=
  forallb (fun i => forallb (fun j => negb (Rltb 1e-12 (Cnorm2 (Cconj (m i j) - m j i)%C))) idx4) idx4.

Fixpoint last_char (s : string) : option ascii :=
  match s with
  | EmptyString => None
  | String c EmptyString => Some c
  | String _ r => last_char r
  end.

Definition is_adj_label (l : string) : bool :=
  Nat.ltb 4 (String.length l) && (substring 0 4 l =? "adj(")
  && match last_char l with Some c => Ascii.eqb c ")" | None => false end.

Definition adjoint_label (l : string) : string :=
  if is_adj_label l then substring 4 (String.length l - 5) l else "adj(" ++ l ++ ")".

Definition gate_adjoint (g : gate) : gate :=
  let adj := madj (gmat g) in
  match gparam g with
  | Some (p, b) =>
      mkGate (glabel g) (gtarget g) (gcontrol g) adj
        (Some (p * (if b then 1 - 2 else 1), b))
  | None =>
      if self_adjoint (gmat g) then g
      else match gate_type g with
           | TT => mkGate "R" (gtarget g) (gcontrol g) adj (Some (- PI / 4, true))
           | TS => mkGate "R" (gtarget g) (gcontrol g) adj (Some (- PI / 2, true))
           | _ => mkGate (adjoint_label (glabel g)) (gtarget g) (gcontrol g) adj (gparam g)
           end
  end.

(** gate.cc:183-199 [operator==] *)
Definition gate_eqb (l r : gate) : bool :=
  if negb (glabel l =? glabel r) then false
  else if negb (Nat.eqb (gtarget l) (gtarget r)) then false
  else if negb (Nat.eqb (gcontrol l) (gcontrol r)) then false
  else match parameter l, parameter r with
       | Some a, Some b => Rltb (Rabs (a - b)) 1e-12
       | _, _ => true
       end.

(** std::string operator< : lexicographic on bytes *)
Definition str_ltb (a b : string) : bool :=
  match String.compare a b with Lt => true | _ => false end.

(** gate.cc:203-219 [operator<] *)
Definition gate_ltb (l r : gate) : bool :=
  if negb (glabel l =? glabel r) then str_ltb (glabel l) (glabel r)
  else if negb (Nat.eqb (gtarget l) (gtarget r)) then Nat.ltb (gtarget l) (gtarget r)
  else if negb (Nat.eqb (gcontrol l) (gcontrol r)) then Nat.ltb (gcontrol l) (gcontrol r)
  else match parameter l, parameter r with
       | Some a, Some b => Rltb a b
       | _, _ => false
       end.

Definition tmem (t : gtype) (l : list gtype) : bool := existsb (gtype_eqb t) l.

(** gate.cc:256-272; the set treats pairs as unordered (pair_equal) *)
Definition commuting_table : list (gtype * gtype) :=
  [(TX,TX); (TRx,TX); (TV,TX); (TadjV,TX); (TY,TY); (TRy,TY); (TZ,TZ); (TS,TZ);
   (TT,TZ); (TRz,TZ); (TR,TZ); (TH,TH); (TS,TS); (TS,TT); (TRz,TS); (TR,TS);
   (TT,TT); (TRz,TT); (TR,TT); (TRx,TRx); (TRx,TV); (TadjV,TRx); (TRy,TRy); (TRz,TRz);
   (TR,TRz); (TR,TR); (TV,TV); (TadjV,TV); (TadjV,TadjV)].
Definition pair_mem (a b : gtype) (l : list (gtype * gtype)) : bool :=
  existsb (fun p => (gtype_eqb a (fst p) && gtype_eqb b (snd p))
                    || (gtype_eqb a (snd p) && gtype_eqb b (fst p))) l.
Definition pairs_commute (a b : gtype) : bool := pair_mem a b commuting_table.
(** gate.cc:274-275 *)
Definition V_adjV (a b : gtype) : bool := pair_mem a b [(TadjV, TV)].
(** gate.cc:277-281 *)
Definition diagonal_1q (t : gtype) : bool := tmem t [TT; TS; TZ; TRz; TR].
Definition phase_1q (t : gtype) : bool := tmem t [TT; TS; TZ; TR].
(** gate.cc:283-287: map::at throws std::out_of_range on other types *)
Definition controlled_to_1q (t : gtype) : res gtype :=
  match t with
  | TcX => Ok TX | TacX => Ok TX | TcY => Ok TY | TcZ => Ok TZ | TcRz => Ok TRz
  | TcR => Ok TR | TcV => Ok TV | TadjcV => Ok TadjV
  | _ => Throw OutOfRange
  end.
(** gate.cc:289-290 *)
Definition symmetrical_2q (t : gtype) : bool := tmem t [TcZ; TcR; TSWAP].

Definition is_type (t : gtype) (g : gate) : bool := gtype_eqb (gate_type g) t.

(** std::set {target, control} *)
Definition qubit_set (g : gate) : list nat :=
  if Nat.eqb (gtarget g) (gcontrol g) then [gtarget g] else [gtarget g; gcontrol g].

(** gate.cc:292-414 [evaluate_gate_interaction]: (commute, simplification case) *)
Definition evaluate_gate_interaction (g1 g2 : gate) : res (bool * nat) :=
  let q1 := qubit_set g1 in
  let q2 := qubit_set g2 in
  let common := length (filter (fun q => existsb (Nat.eqb q) q2) q1) in
  if Nat.eqb common 0 then Ok (true, 0%nat)
  else
    let n1 := length q1 in
    let n2 := length q2 in
    let t1 := gate_type g1 in
    let t2 := gate_type g2 in
    let swap_or_A := is_type TSWAP g1 || is_type TSWAP g2 || is_type TA g1 || is_type TA g2 in
    match (n1 * n2)%nat with
    | 1%nat =>
        if phase_1q t1 && phase_1q t2 then
          if gtype_eqb t1 t2 then Ok (true, 1%nat) else Ok (true, 3%nat)
        else Ok (pairs_commute t1 t2, (b2n (gtype_eqb t1 t2) + 4 * b2n (V_adjV t1 t2))%nat)
    | 2%nat =>
        if swap_or_A then Ok (false, 0%nat)
        else
          let sg := if Nat.eqb n1 1 then g1 else g2 in
          let tg := if Nat.eqb n1 1 then g2 else g1 in
          if Nat.eqb (gtarget sg) (gtarget tg) then
            do t <- controlled_to_1q (gate_type tg);
            Ok (pairs_commute (gate_type sg) t, 0%nat)
          else Ok (diagonal_1q (gate_type sg), 0%nat)
    | 4%nat =>
        if Nat.eqb common 1 then
          if swap_or_A then Ok (false, 0%nat)
          else if Nat.eqb (gcontrol g1) (gcontrol g2) then Ok (true, 0%nat)
          else if Nat.eqb (gtarget g1) (gtarget g2) then
            do a <- controlled_to_1q t1; do b <- controlled_to_1q t2;
            Ok (pairs_commute a b, 0%nat)
          else if Nat.eqb (gtarget g1) (gcontrol g2) then
            do a <- controlled_to_1q t1; Ok (diagonal_1q a, 0%nat)
          else do b <- controlled_to_1q t2; Ok (diagonal_1q b, 0%nat)
        else
          if symmetrical_2q t1 && symmetrical_2q t2 then
            Ok (true, (2 * b2n (gtype_eqb t1 t2))%nat)
          else if is_type TSWAP g1 || is_type TSWAP g2 then Ok (false, 0%nat)
          else if is_type TA g1 || is_type TA g2 then
            if symmetrical_2q t1 || symmetrical_2q t2 then Ok (true, 0%nat) else Ok (false, 0%nat)
          else if Nat.eqb (gtarget g1) (gtarget g2) then
            do a <- controlled_to_1q t1; do b <- controlled_to_1q t2;
            Ok (pairs_commute a b, (b2n (gtype_eqb t1 t2) + 4 * b2n (V_adjV a b))%nat)
          else
            do a <- controlled_to_1q t1;
            if diagonal_1q a then do b <- controlled_to_1q t2; Ok (diagonal_1q b, 0%nat)
            else Ok (false, 0%nat)
    | _ => Ok (false, 0%nat)
    end.

(** What a gate object means: its matrix on its qubits (specification). *)
Definition gate_act (g : gate) (psi : state) : state :=
  if Nat.eqb (gtarget g) (gcontrol g) then act1 (gmat g) (gtarget g) psi
  else act2 (gmat g) (gtarget g) (gcontrol g) psi.
Definition circ_act (gs : list gate) (psi : state) : state :=
  fold_left (fun s g => gate_act g s) gs psi.

(** Gates a user can obtain through the public API (the Python bindings expose no
    Gate constructor): make_gate, make_control_gate on a one-qubit library gate,
    adjoint. *)
Inductive library_gate : gate -> Prop :=
| lib_make type t c p g : make_gate type t c p = Ok g -> library_gate g
| lib_control c U g : library_gate U -> gnqubits U = 1%nat -> make_control_gate c U = Ok g -> library_gate g
| lib_adjoint g : library_gate g -> library_gate (gate_adjoint g).
