(** Model of src/qforte/computer.{h,cc}: gate application. *)
From Coq Require Import Reals String List Arith Bool.
From Verif Require Import CBase Result Bits Spec GateModel.
Import ListNotations.

(** computer.h:146-172.  [nbasis_] is always 2^nqubit_ and [basis_[i]] always
    QubitBasis(i) (computer.cc:29-34), so they are computed; timings and print
    threshold are not modelled. *)
Record computer := mkComputer {
  nqubit : nat;
  coeff : list C;
  new_coeff : list C;
  none_ops : nat;
  ntwo_ops : nat
}.
Definition nbasis (q : computer) : nat := 2 ^ nqubit q.
Definition basis (q : computer) : list nat := seq 0 (nbasis q).

Definition set_coeff (q : computer) (v : list C) : computer :=
  mkComputer (nqubit q) v (new_coeff q) (none_ops q) (ntwo_ops q).

(** compute_threshold_ (computer.h:178) *)
Definition thr : R := 1e-16%R.
Definition above (x : R) : bool := Rltb thr x.
Definition abs2 (a b : C) : R := (Cabs a + Cabs b)%R.

(** Computer::Computer (computer.cc:28-38) *)
Definition zeros (n : nat) : list C := repeat C0 n.
Definition new_computer (n : nat) : computer :=
  mkComputer n (list_set (zeros (2 ^ n)) 0 C1) (zeros (2 ^ n)) 0 0.

(** Bodies of the innermost loops; each mentions only coeff_. *)
Definition body_full (a b c d : C) (I0 I1 : nat) (v : list C) : res (list C) :=
  do x0 <- vget v I0; do x1 <- vget v I1;
  do v <- vset v I0 (a * x0 + b * x1)%C;
  vset v I1 (c * x0 + d * x1)%C.
Definition body_scale (a : C) (I : nat) (v : list C) : res (list C) :=
  do x <- vget v I; vset v I (a * x)%C.
Definition body_swap (I0 I1 : nat) (v : list C) : res (list C) :=
  do x0 <- vget v I0; do x1 <- vget v I1;
  do v <- vset v I0 x1; vset v I1 x0.
Definition body_off (b c : C) (I0 I1 : nat) (v : list C) : res (list C) :=
  do x0 <- vget v I0; do x1 <- vget v I1;
  do v <- vset v I0 (b * x1)%C; vset v I1 (c * x0)%C.

(** [for (I0 = start0, I1 = start1; I0 < end0; ++I0, ++I1) body] *)
Definition inner2 (start0 start1 end0 : nat) (body : nat -> nat -> list C -> res (list C))
  (v : list C) : res (list C) :=
  foreach (seq start0 (end0 - start0)) (fun I0 => body I0 (start1 + (I0 - start0))) v.
Definition inner1 (start end_ : nat) (body : nat -> list C -> res (list C))
  (v : list C) : res (list C) :=
  foreach (seq start (end_ - start)) body v.

(** [for (; end0 <= limit;) { inner; start0 += off; start1 += off; end0 += off; }]
    returns the final (start0, start1, end0) as well, which the nested loops of
    the two-qubit code keep using. *)
Definition blocks2 (fuel limit start0 start1 end0 off : nat)
  (body : nat -> nat -> list C -> res (list C)) (v : list C) : res (nat * nat * nat * list C) :=
  while_ fuel (fun s => let '(_, _, e0, _) := s in e0 <=? limit)
    (fun s => let '(s0, s1, e0, v) := s in
       do v <- inner2 s0 s1 e0 body v;
       Ok (s0 + off, s1 + off, e0 + off, v))
    (start0, start1, end0, v).
Definition blocks1 (fuel limit start end_ off : nat)
  (body : nat -> list C -> res (list C)) (v : list C) : res (nat * nat * list C) :=
  while_ fuel (fun s => let '(_, e, _) := s in e <=? limit)
    (fun s => let '(s0, e, v) := s in
       do v <- inner1 s0 e body v;
       Ok (s0 + off, e + off, v))
    (start, end_, v).

(** [operator==(op_a == op_b) == 1.0] as C++ parses it (computer.cc:398,548,669):
    the bool (op_a == op_b) is promoted and compared with 1.0. *)
Definition cpp_chained_eq_one (a b : C) : bool := Ceqb (RtoC (if Ceqb a b then 1%R else 0%R)) C1.

(** Computer::apply_1qubit_gate (computer.cc:340-425), the part acting on coeff_.
    [nb] is nbasis_. *)
Definition apply1_vec (nb target : nat) (m : mat) (v : list C) : res (list C) :=
  let block_size := 2 ^ target in
  let block_offset := 2 * block_size in
  let op00 := m 0 0 in let op01 := m 0 1 in let op10 := m 1 0 in let op11 := m 1 1 in
  let fuel := S nb in
  if above (abs2 op00 op11) && above (abs2 op01 op10) then
    (* Case I *)
    do r <- blocks2 fuel nb 0 block_size (0 + block_size) block_offset
              (body_full op00 op01 op10 op11) v;
    Ok (snd r)
  else if above (abs2 op00 op11) then
    (* Case II-A *)
    do v <- (if negb (Ceqb op00 C1) then
               do r <- blocks1 fuel nb 0 (0 + block_size) block_offset (body_scale op00) v; Ok (snd r)
             else Ok v);
    (* Case II-B *)
    (if negb (Ceqb op11 C1) then
       do r <- blocks1 fuel nb block_size (block_size + block_size) block_offset (body_scale op11) v;
       Ok (snd r)
     else Ok v)
  else if cpp_chained_eq_one op01 op10 then
    (* Case III-A *)
    do r <- blocks1 fuel nb 0 (0 + block_size) block_offset
              (fun I0 => body_swap I0 (I0 + block_size)) v;
    Ok (snd r)
  else
    (* Case III-B *)
    do r <- blocks1 fuel nb 0 (0 + block_size) block_offset
              (fun I0 => body_off op01 op10 I0 (I0 + block_size)) v;
    Ok (snd r).

Definition apply_1qubit_gate (q : computer) (g : gate) : res computer :=
  do v <- apply1_vec (nbasis q) (gtarget g) (gmat g) (coeff q);
  Ok (mkComputer (nqubit q) v (new_coeff q) (S (none_ops q)) (ntwo_ops q)).

(** The doubly nested block loops of apply_2qubit_gate:
    [for (; outer_end <= nb;) { for (; end0 <= outer_end - sub;) {...}
       start0 += outer; start1 += outer; end0 += outer; outer_end += outer_off; }] *)
Definition nest2 (nb outer_end sub start0 start1 end0 off outer outer_off : nat)
  (body : nat -> nat -> list C -> res (list C)) (v : list C) : res (list C) :=
  do r <- while_ (S nb) (fun s => let '(oe, _, _, _, _) := s in oe <=? nb)
    (fun s => let '(oe, s0, s1, e0, v) := s in
       do r <- blocks2 (S nb) (oe - sub) s0 s1 e0 off body v;
       let '(s0, s1, e0, v) := r in
       Ok (oe + outer_off, s0 + outer, s1 + outer, e0 + outer, v))
    (outer_end, start0, start1, end0, v);
  Ok (snd r).
Definition nest1 (nb outer_end start end_ off outer outer_off : nat)
  (body : nat -> list C -> res (list C)) (v : list C) : res (list C) :=
  do r <- while_ (S nb) (fun s => let '(oe, _, _, _) := s in oe <=? nb)
    (fun s => let '(oe, s0, e, v) := s in
       do r <- blocks1 (S nb) oe s0 e off body v;
       let '(s0, e, v) := r in
       Ok (oe + outer_off, s0 + outer, e + outer, v))
    (outer_end, start, end_, v);
  Ok (snd r).

(** computer.cc:637-646: the int-indexed loop nest of case 1-B / II-A *)
Definition nest_for (nb outer_off outer block_size off : nat)
  (body : nat -> list C -> res (list C)) (v : list C) : res (list C) :=
  do r <- while_ (S nb) (fun s => let '(os, _) := s in os <? nb)
    (fun s => let '(os, v) := s in
       do r <- while_ (S nb) (fun s => let '(bs, _) := s in bs <? os + outer)
         (fun s => let '(bs, v) := s in
            do v <- inner1 bs (bs + block_size) body v;
            Ok (bs + off, v)) (os + block_size, v);
       Ok (os + outer_off, snd r)) (0, v);
  Ok (snd r).

(** computer.cc:473-598: control gate, target < control *)
Definition apply2_ctrl_A (nb target control : nat) (op22 op23 op32 op33 : C) (v : list C) : res (list C) :=
  let outer := 2 ^ control in
  let outer_off := 2 * outer in
  let block := 2 ^ target in
  let off := 2 * block in
  if above (abs2 op22 op33) && above (abs2 op23 op32) then
    nest2 nb outer_off 0 outer (outer + block) (outer + block) off outer outer_off
      (body_full op22 op23 op32 op33) v
  else if above (abs2 op22 op33) then
    do v <- (if negb (Ceqb op22 C1) then
               nest1 nb outer_off outer (outer + block) off outer outer_off (body_scale op22) v
             else Ok v);
    (if negb (Ceqb op33 C1) then
       nest1 nb outer_off (outer + block) (outer + block + block) off outer outer_off (body_scale op33) v
     else Ok v)
  else if cpp_chained_eq_one op23 op32 then
    nest2 nb outer_off 0 outer (outer + block) (outer + block) off outer outer_off body_swap v
  else
    nest2 nb outer_off 0 outer (outer + block) (outer + block) off outer outer_off
      (body_off op23 op32) v.

(** computer.cc:599-719: control gate, control < target *)
Definition apply2_ctrl_B (nb target control : nat) (op22 op23 op32 op33 : C) (v : list C) : res (list C) :=
  let outer := 2 ^ target in
  let outer_off := outer * 2 in
  let block := 2 ^ control in
  let off := block * 2 in
  if above (abs2 op22 op33) && above (abs2 op23 op32) then
    nest2 nb outer_off outer block (outer + block) off off outer outer_off
      (body_full op22 op23 op32 op33) v
  else if above (abs2 op22 op33) then
    do v <- (if negb (Ceqb op22 C1) then nest_for nb outer_off outer block off (body_scale op22) v
             else Ok v);
    (if negb (Ceqb op33 C1) then
       nest1 nb outer_off (outer + block) (outer + block + block) off outer outer_off (body_scale op33) v
     else Ok v)
  else if cpp_chained_eq_one op23 op32 then
    nest2 nb outer 0 block (outer + block) off off outer outer_off body_swap v
  else
    nest2 nb outer 0 block (outer + block) off off outer outer_off (body_off op23 op32) v.

(** Gate::two_qubits_basis_ (gate.cc:7-8) *)
Definition two_qubits_basis : list (nat * (bool * bool)) :=
  [(0, (false, false)); (1, (false, true)); (2, (true, false)); (3, (true, true))].
Definition one_qubit_basis : list (nat * bool) := [(0, false); (1, true)].

(** new_coeff_[I] += op * coeff_[J] *)
Definition accumulate (op : C) (I J : nat) (v : list C) (w : list C) : res (list C) :=
  do x <- vget v J; do y <- vget w I; vset w I (y + op * x)%C.

(** the standard loop nests (computer.cc:323-336, 434-453, 725-747); [bs] is
    basis_, [v] coeff_, [w] new_coeff_ *)
Definition safe1_vec (bs : list nat) (target : nat) (m : mat) (v w : list C) : res (list C) :=
  foreach one_qubit_basis (fun '(i, bi) => foreach one_qubit_basis (fun '(j, bj) w =>
    if above (Cabs (m i j)) then
      foreach bs (fun J w =>
        if Bool.eqb (bit J target) bj then accumulate (m i j) (upd J target bi) J v w
        else Ok w) w
    else Ok w)) w.
Definition safe2_vec (bs : list nat) (target control : nat) (m : mat) (v w : list C) : res (list C) :=
  foreach two_qubits_basis (fun '(i, (ic, it)) => foreach two_qubits_basis (fun '(j, (jc, jt)) w =>
    if above (Cabs (m i j)) then
      foreach bs (fun J w =>
        if Bool.eqb (bit J control) jc && Bool.eqb (bit J target) jt
        then accumulate (m i j) (upd (upd J control ic) target it) J v w
        else Ok w) w
    else Ok w)) w.

(** Computer::apply_2qubit_gate (computer.cc:458-751).  If target = control the
    control-gate branch does nothing (neither inner if is taken). *)
Definition apply_2qubit_gate (q : computer) (g : gate) : res computer :=
  let target := gtarget g in
  let control := gcontrol g in
  let m := gmat g in
  let nb := nbasis q in
  if Rltb (abs2 (m 0 1) (m 1 0)) thr && Ceqb (m 0 0) C1 && Ceqb (m 1 1) C1 then
    do q <- (if target <? control then
               do v <- apply2_ctrl_A nb target control (m 2 2) (m 2 3) (m 3 2) (m 3 3) (coeff q);
               Ok (mkComputer (nqubit q) v (new_coeff q) (none_ops q) (S (ntwo_ops q)))
             else Ok q);
    (if control <? target then
       do v <- apply2_ctrl_B nb target control (m 2 2) (m 2 3) (m 3 2) (m 3 3) (coeff q);
       Ok (mkComputer (nqubit q) v (new_coeff q) (none_ops q) (S (ntwo_ops q)))
     else Ok q)
  else
    do w <- safe2_vec (basis q) target control m (coeff q) (new_coeff q);
    Ok (mkComputer (nqubit q) w (map (fun _ => C0) (new_coeff q)) (none_ops q) (S (ntwo_ops q))).

(** Computer::apply_gate (computer.cc:103-114) *)
Definition apply_gate (q : computer) (g : gate) : res computer :=
  do q <- (if gnqubits g =? 1 then apply_1qubit_gate q g else Ok q);
  (if gnqubits g =? 2 then apply_2qubit_gate q g else Ok q).

(** Computer::apply_gate_safe (computer.cc:116-128, 319-338, 427-456) *)
Definition apply_gate_safe (q : computer) (g : gate) : res computer :=
  do q <- (if gnqubits g =? 1 then
             do w <- safe1_vec (basis q) (gtarget g) (gmat g) (coeff q) (new_coeff q);
             Ok (mkComputer (nqubit q) (coeff q) w (S (none_ops q)) (ntwo_ops q))
           else Ok q);
  do q <- (if gnqubits g =? 2 then
             do w <- safe2_vec (basis q) (gtarget g) (gcontrol g) (gmat g) (coeff q) (new_coeff q);
             Ok (mkComputer (nqubit q) (coeff q) w (none_ops q) (S (ntwo_ops q)))
           else Ok q);
  Ok (mkComputer (nqubit q) (new_coeff q) (map (fun _ => C0) (new_coeff q)) (none_ops q) (ntwo_ops q)).

(** Computer::apply_circuit, apply_circuit_safe (computer.cc:91-101); a circuit is
    its list of gates *)
Definition apply_circuit (q : computer) (gs : list gate) : res computer :=
  foreach gs (fun g q => apply_gate q g) q.
Definition apply_circuit_safe (q : computer) (gs : list gate) : res computer :=
  foreach gs (fun g q => apply_gate_safe q g) q.

(** Computer::apply_constant (computer.cc:130-133) *)
Definition apply_constant (q : computer) (a : C) : computer :=
  set_coeff q (map (fun x => (x * a)%C) (coeff q)).

(** Computer::set_state, null_state, reset (computer.cc:42-54) *)
Definition set_state (q : computer) (l : list (nat * C)) : res computer :=
  do v <- foreach l (fun p v => vset v (fst p) (snd p)) (map (fun _ => C0) (coeff q));
  Ok (set_coeff q v).
Definition null_state (q : computer) : computer := set_coeff q (map (fun _ => C0) (coeff q)).
Definition reset (q : computer) : res computer :=
  do v <- vset (coeff (null_state q)) 0 C1; Ok (set_coeff q v).
(** Computer::set_coeff_vec (computer.h:130) *)
Definition set_coeff_vec (q : computer) (v : list C) : computer := set_coeff q v.

(** A computer as every public operation leaves it (apart from set_coeff_vec with a
    vector of the wrong length). *)
Definition wf_computer (q : computer) : Prop :=
  length (coeff q) = nbasis q /\ new_coeff q = zeros (nbasis q).
