(** Model of src/qforte/utils/compact_excitation_circuits.py.  A Circuit is the list of its
    gates.  Python's floats are exact reals; the amplitude is complex because
    qforte.gate takes a complex parameter. *)
From Coq Require Import Reals String List Arith Bool.
From Verif Require Import CBase Result Bits Spec GateModel LibProofs CircuitModel PyModel.
Import ListNotations.
Local Open Scope nat_scope.

(** gate(type, target, control, parameter) with a complex parameter, bindings.cc:281-290 *)
Definition py_gate3c (type : string) (target control : nat) (p : C) : res gate :=
  if Req_EM_T (Im p) 0 then make_gate type target control (Re p) else Throw InvalidArg.
(** circ.add(gate) *)
Definition add_gate (g : res gate) (circ : list gate) : res (list gate) := do x <- g; Ok (circ ++ [x])%list.
(** x in l *)
Definition mem (x : nat) (l : list nat) : bool := existsb (Nat.eqb x) l.
(** l[0] *)
Definition py_head (l : list nat) : res nat := match l with x :: _ => Ok x | [] => Throw (PyError "IndexError") end.
(** l[i] for a non-negative i *)
Definition py_at (l : list nat) (i : nat) : res nat := match nth_error l i with Some x => Ok x | None => Throw (PyError "IndexError") end.

(** ---- multi_qubit_controlled_Ry, lines 207-291 ---- *)
(** the for/break over the controls, lines 279-289; m % n of positive floats that are whole
    numbers is the remainder.  [gsd] is gsd_control != [] *)
Fixpoint add_control (num i j target : nat) (gsd : bool) (controls : list nat) (circ : list gate) : res (list gate) :=
  match controls with
  | [] => Ok circ
  | control :: rest =>
      if Nat.eqb (Nat.modulo (i + 1) (Nat.div num (Nat.pow 2 (j + 1)))) 0 then
        if Nat.eqb (Nat.modulo (i + 1) (Nat.div num 2)) 0 || Nat.eqb i (num - 1) then add_gate (py_gate2 "CNOT" target control) circ
        else if gsd then add_gate (py_gate2 "CNOT" target control) circ
        else add_gate (py_gate2 "aCNOT" target control) circ
      else add_control num i (S j) target gsd rest circ
  end.
(** prefactor, lines 269-276 *)
Definition ry_prefactor (rank : nat) : R :=
  (let p := if Nat.eqb rank 1 then 1 else -1 in
   if Nat.eqb (Nat.modulo rank 2) 0 && Nat.eqb (Nat.modulo rank 4) 0 then 1
   else if Nat.eqb (Nat.modulo (rank - 1) 2) 0 && Nat.eqb (Nat.modulo (rank - 1) 4) 0 then 1 else p)%R.
(** sign of the i-th rotation, lines 263-277 *)
Definition ry_sign (i rank : nat) (gsd_sign : R) (qubit_excitations : bool) : R :=
  (let sign := 1 - 2 * INR (Nat.modulo i 2) in
   if qubit_excitations then sign else sign * (ry_prefactor rank * gsd_sign))%R.
(** there is always a control qubit: the caller fails on an empty annihilation list *)
Definition multi_qubit_controlled_Ry (theta : C) (target : nat) (control_creation control_annihilation gsd_control : list nat)
    (gsd_sign : R) (qubit_excitations : bool) : res (list gate) :=
  let control_qubits := (control_annihilation ++ rev control_creation ++ gsd_control)%list in
  let num_Ry_gates := Nat.pow 2 (length control_qubits) in
  let new_theta := (theta * RtoC (/ INR (Nat.pow 2 (length control_qubits - 1))))%C in
  foreach (seq 0 num_Ry_gates) (fun i circ =>
    do circ <- add_gate (py_gate3c "Ry" target target (RtoC (ry_sign i (length control_annihilation) gsd_sign qubit_excitations) * new_theta)) circ;
    add_control num_Ry_gates i 0 target (negb (match gsd_control with [] => true | _ => false end)) control_qubits circ) [].

(** ---- qubit_excitation, lines 155-204 ---- *)
Definition qubit_excitation (theta : C) (creation annihilation gsd_control : list nat) (gsd_sign : R) (qubit_excitations : bool) : res (list gate) :=
  do circ <- foreach (tl creation) (fun target circ => do c0 <- py_head creation; add_gate (py_gate2 "CNOT" target c0) circ) [];
  do circ <- foreach (tl annihilation) (fun target circ => do a0 <- py_head annihilation; add_gate (py_gate2 "CNOT" target a0) circ) circ;
  do a0 <- py_head annihilation;
  do c0 <- py_head creation;
  do circ <- add_gate (py_gate2 "CNOT" a0 c0) circ;
  do ry <- multi_qubit_controlled_Ry theta c0 (tl creation) annihilation gsd_control gsd_sign qubit_excitations;
  Ok (circ ++ ry ++ circuit_adjoint circ)%list.

(** ---- fermion_sign_circuit, lines 92-152 ---- *)
(** aux[j, -1] after lines 114-130 *)
Definition z_survives (idxs : list nat) (j : nat) : bool :=
  if mem j idxs then false else fold_left (fun b p => xorb b (Nat.ltb j p)) idxs false.
(** the reversed CNOT_indices, lines 132-137 *)
Definition cnot_indices (idxs : list nat) : list nat := rev (filter (z_survives idxs) (seq 0 (list_max idxs + 1))).
(** the CNOTs between successive entries, lines 144-145 *)
Fixpoint add_stair (l : list nat) (circ : list gate) : res (list gate) :=
  match l with
  | x :: ((y :: _) as r) => do c <- add_gate (py_gate2 "CNOT" y x) circ; add_stair r c
  | _ => Ok circ
  end.
(** max of an empty list raises ValueError, line 111 *)
Definition fermion_sign_circuit (creation annihilation : list nat) : res (list gate) :=
  let idxs := (creation ++ annihilation)%list in
  match idxs with [] => Throw (PyError "ValueError") | _ =>
    match cnot_indices idxs with
    | [] => Ok []
    | l => do circ <- add_stair l [];
           do c0 <- py_head creation;
           add_gate (py_gate2 "cZ" c0 (last l 0)) circ
    end
  end.

(** ---- compact_excitation_circuit, lines 9-89 ---- *)
(** the loop over range(2), lines 57-63 *)
Definition duplicates (creation annihilation : list nat) (q : nat) : res (list nat) :=
  foreach [0; 1] (fun i dup =>
    do c <- py_at creation i;
    let dup := if Nat.eqb c q then (dup ++ [i])%list else dup in
    do a <- py_at annihilation i;
    Ok (if Nat.eqb a q then (dup ++ [i])%list else dup)) [].
Definition compact_excitation_circuit (theta : C) (creation annihilation : list nat) (qubit_excitations : bool) : res (list gate) :=
  if negb (Nat.eqb (length creation) (length annihilation)) then Throw (PyError "ValueError") else
  let creation_unique := filter (fun x => negb (mem x annihilation)) creation in
  let annihilation_unique := filter (fun x => negb (mem x creation)) annihilation in
  (* list(set(creation) & set(annihilation)): used only when it has at most one element *)
  let gsd_control := nodup Nat.eq_dec (filter (fun x => mem x annihilation) creation) in
  if Nat.ltb 1 (length gsd_control) then Throw (PyError "ValueError") else
  do gsd_unique <- (match gsd_control with
                    | [] => Ok false
                    | q :: _ => do dup <- duplicates creation annihilation q;
                                Ok (if list_eq_dec Nat.eq_dec dup [0; 0] then true else if list_eq_dec Nat.eq_dec dup [1; 1] then true else false)
                    end);
  let gsd_sign := (match gsd_control with [] => 1 | _ => -1 end)%R in
  do stair <- (if qubit_excitations then Ok []
               else if (gsd_unique : bool) then fermion_sign_circuit creation_unique annihilation_unique
               else fermion_sign_circuit creation annihilation);
  do exc <- qubit_excitation theta creation_unique annihilation_unique gsd_control gsd_sign qubit_excitations;
  Ok (stair ++ exc ++ (if qubit_excitations then [] else circuit_adjoint stair))%list.
