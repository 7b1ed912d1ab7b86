(** Model of src/qforte/circuit.{h,cc}.  A Circuit is its vector gates_, modelled as
    [list gate] (circuit.h:28-120).  A method that may throw after it has modified
    gates_ returns the pair (gates_ afterwards, Some exception | None). *)
From Coq Require Import Reals String List Arith Bool.
From Verif Require Import CBase Result Bits Spec GateModel.
Import ListNotations.
Local Open Scope R_scope.

(** circuit.cc:10-27.  [params[param_idx]] is read (unchecked) before the test
    [param_idx < param_size]; reading past the end is UB_oob. *)
Fixpoint set_parameters_loop (gs : list gate) (params : list R) (idx : nat) : list gate * res nat :=
  match gs with
  | [] => ([], Ok idx)
  | g :: r =>
      match parameter g with
      | Some v =>
          match vget params idx with
          | Throw e => (g :: r, Throw e)
          | Ok x =>
              if Rltb 1e-12 (Rabs (v - x)) && Nat.ltb idx (length params) then
                match make_gate (glabel g) (gtarget g) (gcontrol g) x with
                | Throw e => (g :: r, Throw e)
                | Ok g' => let (r', o) := set_parameters_loop r params (S idx) in (g' :: r', o)
                end
              else let (r', o) := set_parameters_loop r params (S idx) in (g :: r', o)
          end
      | None => let (r', o) := set_parameters_loop r params idx in (g :: r', o)
      end
  end.
Definition set_parameters (gs : list gate) (params : list R) : list gate * option exn :=
  let (gs', o) := set_parameters_loop gs params 0 in
  match o with
  | Throw e => (gs', Some e)
  | Ok idx => (gs', if Nat.eqb idx (length params) then None else Some RuntimeErr)
  end.

(** circuit.cc:29-38 *)
Definition set_parameter (gs : list gate) (pos : nat) (x : R) : res (list gate) :=
  if Nat.leb (length gs) pos then Throw RuntimeErr
  else do g <- vget gs pos;
       if has_parameter g then
         do g' <- make_gate (glabel g) (gtarget g) (gcontrol g) x; vset gs pos g'
       else Throw RuntimeErr.

(** circuit.cc:40-48 *)
Fixpoint get_parameters (gs : list gate) : list R :=
  match gs with
  | [] => []
  | g :: r => match parameter g with Some v => v :: get_parameters r | None => get_parameters r end
  end.

(** std::vector::insert / erase at an iterator position within range *)
Definition vec_insert {A} (v : list A) (pos : nat) (xs : list A) : list A := firstn pos v ++ xs ++ skipn pos v.
Definition vec_erase {A} (v : list A) (pos : nat) : list A := firstn pos v ++ skipn (S pos) v.

(** circuit.h add_gate; circuit.cc:50-96 *)
Definition add_gate (gs : list gate) (g : gate) : list gate := gs ++ [g].
Definition insert_gate (gs : list gate) (pos : nat) (g : gate) : res (list gate) :=
  if Nat.ltb (length gs) pos then Throw RuntimeErr else Ok (vec_insert gs pos [g]).
Definition remove_gate (gs : list gate) (pos : nat) : res (list gate) :=
  if Nat.leb (length gs) pos then Throw RuntimeErr else Ok (vec_erase gs pos).
Definition replace_gate (gs : list gate) (pos : nat) (g : gate) : res (list gate) :=
  if Nat.leb (length gs) pos then Throw RuntimeErr else vset gs pos g.
Definition swap_gates (gs : list gate) (p1 p2 : nat) : res (list gate) :=
  if Nat.leb (length gs) p1 || Nat.leb (length gs) p2 then Throw RuntimeErr
  else do a <- vget gs p1; do b <- vget gs p2; do gs' <- vset gs p1 b; vset gs' p2 a.
Definition add_circuit (gs : list gate) (c : list gate) : list gate := fold_left add_gate c gs.
Definition insert_circuit (gs : list gate) (pos : nat) (c : list gate) : res (list gate) :=
  if Nat.ltb (length gs) pos then Throw RuntimeErr else Ok (vec_insert gs pos c).
(** erase of an invalid iterator range (pos2 < pos1) is undefined behaviour *)
Definition remove_gates (gs : list gate) (p1 p2 : nat) : res (list gate) :=
  if Nat.leb (length gs) p1 || Nat.leb (length gs) p2 then Throw RuntimeErr
  else if Nat.ltb p2 p1 then Throw UB_oob
  else Ok (firstn p1 gs ++ skipn p2 gs).

(** circuit.cc:219-227 *)
Local Open Scope string_scope.
Definition is_pauli_label (l : string) : bool := (l =? "X") || (l =? "Y") || (l =? "Z").
Definition is_pauli (gs : list gate) : bool := forallb (fun g => is_pauli_label (glabel g)) gs.

(** the table [m] of circuit.cc:120-133; std::map::operator[] default-constructs a
    missing entry *)
Definition pauli_table (a b : string) : C * string :=
  if (a =? "X") && (b =? "Y") then (Ci, "Z")
  else if (a =? "X") && (b =? "Z") then ((- Ci)%C, "Y")
  else if (a =? "Y") && (b =? "X") then ((- Ci)%C, "Z")
  else if (a =? "Y") && (b =? "Z") then (Ci, "X")
  else if (a =? "Z") && (b =? "X") then (Ci, "Y")
  else if (a =? "Z") && (b =? "Y") then ((- Ci)%C, "X")
  else if (a =? "X") && (b =? "X") then (C1, "I")
  else if (a =? "Y") && (b =? "Y") then (C1, "I")
  else if (a =? "Z") && (b =? "Z") then (C1, "I")
  else if (a =? "I") && (b =? "X") then (C1, "X")
  else if (a =? "I") && (b =? "Y") then (C1, "Y")
  else if (a =? "I") && (b =? "Z") then (C1, "Z")
  else (C0, "").

(** std::stable_sort by target (the result of a stable sort is unique; insertion sort) *)
Fixpoint insert_by_target (g : gate) (l : list gate) : list gate :=
  match l with
  | [] => [g]
  | h :: r => if Nat.ltb (gtarget h) (gtarget g) then h :: insert_by_target g r else g :: l
  end.
Definition stable_sort_target (gs : list gate) : list gate := fold_right insert_by_target [] gs.

(** loop of circuit.cc:148-166: [first] is first_gate_for_qubit *)
Fixpoint canon_loop (first : bool) (s : string) (coeff : C) (out : list gate) (l : list gate)
  : res (C * list gate) :=
  match l with
  | [] => Ok (coeff, out)
  | g :: r =>
      let s := if first then glabel g else s in
      let finish :=
        do out' <- (if s =? "I" then Ok out
                    else do p <- make_gate s (gtarget g) (gtarget g) 0; Ok (out ++ [p])%list);
        canon_loop true s coeff out' r in
      match r with
      | h :: _ =>
          if Nat.eqb (gtarget g) (gtarget h) then
            let (c, s') := pauli_table s (glabel h) in
            canon_loop false s' (coeff * c)%C out r
          else finish
      | [] => finish
      end
  end.

(** circuit.cc:107-169: (returned prefactor, new gates_) *)
Definition canonicalize_pauli_circuit (gs : list gate) : res (C * list gate) :=
  match gs with
  | [] => Ok (C1, gs)
  | _ => if negb (is_pauli gs) then Throw RuntimeErr
         else canon_loop true "" C1 [] (stable_sort_target gs)
  end.

(** circuit.cc:171-182 *)
Definition cnot_cost (g : gate) : nat :=
  if (glabel g =? "CNOT") || (glabel g =? "cX") || (glabel g =? "aCNOT") || (glabel g =? "acX") then 1
  else if (glabel g =? "A") || (glabel g =? "SWAP") then 3 else 0.
Definition get_num_cnots (gs : list gate) : nat := fold_left (fun n g => (n + cnot_cost g)%nat) gs 0%nat.

(** circuit.cc:193-199 *)
Definition num_qubits (gs : list gate) : nat :=
  fold_left (fun m g => Nat.max m (Nat.max (gtarget g + 1) (gcontrol g + 1))) gs 0%nat.

(** circuit.cc:229-244 *)
Definition get_phase_gate_parameter (g : gate) : res R :=
  match parameter g with
  | Some v => Ok v
  | None => match gate_type g with
            | TT => Ok (PI / 4) | TS => Ok (PI / 2) | TZ => Ok PI
            | _ => Throw InvalidArg
            end
  end.

(** circuit.cc:248-262 *)
Definition involutory_gates : list gtype := [TX; TY; TZ; TcX; TcY; TcZ; TacX; TH; TSWAP].
Definition parametrized_gates : list gtype := [TRx; TRy; TRz; TR; TcRz; TcR].
Definition square_root_gates : list gtype := [TT; TS; TV; TcV; TadjV; TadjcV].
Definition simplify_square_root (t : gtype) : res string :=
  match t with
  | TT => Ok "S" | TS => Ok "Z" | TV => Ok "X" | TcV => Ok "cX" | TadjV => Ok "X" | TadjcV => Ok "cX"
  | _ => Throw OutOfRange
  end.
Definition std_optional_value (o : option R) : res R :=
  match o with Some v => Ok v | None => Throw UB_oob end.

(** What the body of the inner loop (circuit.cc:281-330) does with a pair:
    go on with the next pos2, leave the inner loop, drop both, or drop pos1 and
    put a new gate at pos2. *)
Inductive pair_action := Continue | Break | DropBoth | Merge (g : gate).

Definition pair_step (gate1 gate2 : gate) : res pair_action :=
  do ck <- evaluate_gate_interaction gate1 gate2;
  let (commute, k) := ck in
  if negb commute then Ok Break
  else if Nat.eqb k 0 then Ok Continue
  else if Nat.eqb k 1 then
    if tmem (gate_type gate1) involutory_gates then Ok DropBoth
    else if tmem (gate_type gate1) parametrized_gates then
      do a <- std_optional_value (parameter gate1); do b <- std_optional_value (parameter gate2);
      do g <- make_gate (glabel gate2) (gtarget gate2) (gcontrol gate2) (a + b)%R; Ok (Merge g)
    else if tmem (gate_type gate1) square_root_gates then
      do l <- simplify_square_root (gate_type gate2);
      do g <- make_gate l (gtarget gate2) (gcontrol gate2) 0; Ok (Merge g)
    else Ok Continue
  else if Nat.eqb k 2 then
    if tmem (gate_type gate1) involutory_gates then Ok DropBoth
    else
      do u <- controlled_to_1q (gate_type gate1);
      if phase_1q u then
        do a <- std_optional_value (parameter gate1); do b <- std_optional_value (parameter gate2);
        do g <- make_gate (glabel gate2) (gtarget gate2) (gcontrol gate2) (a + b)%R; Ok (Merge g)
      else Ok Continue
  else if Nat.eqb k 3 then
    do a <- get_phase_gate_parameter gate1; do b <- get_phase_gate_parameter gate2;
    do g <- make_gate "R" (gtarget gate2) (gcontrol gate2) (a + b)%R; Ok (Merge g)
  else if Nat.eqb k 4 then Ok DropBoth
  else Ok Continue.

Definition nmem (x : nat) (l : list nat) : bool := existsb (Nat.eqb x) l.

(** inner loop over pos2 (circuit.cc:273-334); state: gates_, gate_indices_to_remove *)
Fixpoint simplify_inner (gate1 : gate) (pos1 : nat) (l : list nat) (gs : list gate) (rem : list nat)
  : list gate * list nat * option exn :=
  match l with
  | [] => (gs, rem, None)
  | pos2 :: r =>
      if nmem pos2 rem then simplify_inner gate1 pos1 r gs rem
      else match vget gs pos2 with
           | Throw e => (gs, rem, Some e)
           | Ok gate2 =>
               match pair_step gate1 gate2 with
               | Throw e => (gs, rem, Some e)
               | Ok Continue => simplify_inner gate1 pos1 r gs rem
               | Ok Break => (gs, rem, None)
               | Ok DropBoth => (gs, (rem ++ [pos1; pos2])%list, None)
               | Ok (Merge g) => (list_set gs pos2 g, (rem ++ [pos1])%list, None)
               end
           end
  end.
(** outer loop over pos1 (circuit.cc:266-335) *)
Fixpoint simplify_outer (l : list nat) (gs : list gate) (rem : list nat) : list gate * list nat * option exn :=
  match l with
  | [] => (gs, rem, None)
  | pos1 :: r =>
      if nmem pos1 rem then simplify_outer r gs rem
      else match vget gs pos1 with
           | Throw e => (gs, rem, Some e)
           | Ok gate1 =>
               match simplify_inner gate1 pos1 (seq (S pos1) (length gs - S pos1)) gs rem with
               | (gs', rem', Some e) => (gs', rem', Some e)
               | (gs', rem', None) => simplify_outer r gs' rem'
               end
           end
  end.
Fixpoint insert_nat (x : nat) (l : list nat) : list nat :=
  match l with [] => [x] | y :: r => if Nat.leb x y then x :: l else y :: insert_nat x r end.
(** std::sort on size_t *)
Definition sort_nat (l : list nat) : list nat := fold_right insert_nat [] l.

(** circuit.cc:246-341 *)
Definition simplify (gs : list gate) : list gate * option exn :=
  match simplify_outer (seq 0 (length gs)) gs [] with
  | (gs', _, Some e) => (gs', Some e)
  | (gs', rem, None) => (fold_left vec_erase (rev (sort_nat rem)) gs', None)
  end.

(** circuit.cc:343-347: vector operator== / operator< (lexicographic) *)
Fixpoint circuit_eqb (a b : list gate) : bool :=
  match a, b with
  | [], [] => true
  | g :: r, h :: s => gate_eqb g h && circuit_eqb r s
  | _, _ => false
  end.
Fixpoint circuit_ltb (a b : list gate) : bool :=
  match a, b with
  | [], [] => false
  | [], _ => true
  | _, [] => false
  | g :: r, h :: s => if gate_ltb g h then true else if gate_ltb h g then false else circuit_ltb r s
  end.
