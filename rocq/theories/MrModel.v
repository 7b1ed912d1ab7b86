(** Model of qkd/mrsqk.py (MRSQK).  scipy.linalg.eig is the oracle of EigModel.v.  Printing, the
    condition numbers and the resource counters are left out; a quotient by zero of numpy (nan)
    is Coq's total quotient. *)
From Coq Require Import Reals String List Arith NArith Bool.
From Verif Require Import CBase Result Bits Spec GateModel ComputerModel CircuitModel OperatorModel MeasureModel PyModel EigModel GradModel LibProofs QkModel.
Import ListNotations.
Local Open Scope nat_scope.

(** what an MRSQK object reads; mr_root: target_root, None if it is None *)
Record mr_options := mkMr { mr_nqb : nat; mr_ref : list nat; mr_ham : qop; mr_trotter : nat; mr_dt : R; mr_d : nat; mr_s : nat; mr_root : option nat;
  mr_phase : bool; mr_sa : bool; mr_each : bool; mr_fast : bool; mr_so : nat; mr_dto : R; mr_trotter_o : nat }.

(** idx_org.py:4-35 with use_real=False, rev=True: numpy orders complex numbers by the real and
    then by the imaginary part; equal values keep their order *)
Definition clt (a b : C) : bool := Rltb (Re a) (Re b) || (negb (Rltb (Re b) (Re a)) && Rltb (Im a) (Im b)).
Fixpoint insert_desc (x : C * nat) (l : list (C * nat)) : list (C * nat) :=
  match l with
  | [] => [x]
  | y :: r => if clt (fst x) (fst y) then y :: insert_desc x r else x :: l
  end.
Definition sorted_desc (array : list C) : list (C * nat) := fold_right insert_desc [] (combine array (seq 0 (length array))).

(** what an SRQK object leaves: _eigenvalues, _eigenvectors, _omega_lst *)
Record srqk_data := mkSrqk { k_evals : list C; k_evecs : mat; k_omega : list (list C) }.
(** mrsqk.py:171-188, with SRQK.run (srqk.py:45-62); SRQK diagonalizes at each step *)
Definition mr_srqk (eig : eig_oracle) (o : mr_options) : res srqk_data :=
  do prep <- build_refprep (mr_ref o);
  let q := mkQkOptions (mr_nqb o) prep (mr_ham o) (mr_trotter_o o) (mr_dto o) (mr_so o) 0 true in
  do st <- build_qk_mats eig q (srqk_prep q);
  do e <- canonical_geig_solve eig (mr_so o + 1) (q_s st) (q_h st) true;
  do _x <- py_get (fst e) 0;
  Ok (mkSrqk (fst e) (snd e) (q_omega st)).

(** mrsqk.py:511-535: entry I of the rows n of Cprime and of Cprime_sq_mod.  [ninit] is the
    number of stable roots, [old n] the position of the n-th lowest of them *)
Definition omega_at (k : srqk_data) (m I : nat) : C := nth I (nth m (k_omega k) []) C0.
Definition cprime (k : srqk_data) (total_states : nat) (old : nat -> nat) (n I : nat) : C :=
  let v := Csum (fun m => (Cconj (k_evecs k m (old n)) * omega_at k m I)%C) (seq 0 total_states) in (v * Cconj v)%C.
Definition cprime_sq_mod (k : srqk_data) (total_states ninit : nat) (old : nat -> nat) (n I : nat) : C :=
  Csum (fun m => ((k_evecs k m (old n) * Cconj (k_evecs k m (old n))) * (if m <? ninit then omega_at k m I * Cconj (omega_at k m I) else omega_at k m I))%C) (seq 0 total_states).
(** the [num] determinants with the largest values, as occupation lists: mrsqk.py:545-581 *)
Definition largest (nqb num : nat) (row : nat -> C) : res (list (list nat)) :=
  let s := sorted_desc (map row (seq 0 (2 ^ nqb))) in
  if length s <? num then Throw (PyError "IndexError") else
  OperatorModel.mapM (fun p => integer_to_ref (N.of_nat (snd p)) nqb) (firstn num s).
(** mrsqk.py:487-605 (build_refs).  [initial_ref] is not defined anywhere in the module: the two
    branches for a missing reference determinant raise NameError *)
Definition build_refs (o : mr_options) (k : srqk_data) : res (list (list nat)) :=
  let total_states := mr_so o + 1 in
  let ninit := Nat.min total_states (length (k_evals k)) in
  let idxs := sorted_largest_idxs (k_evals k) false in
  let old n := snd (nth n idxs (C0, 0)) in
  let num := if mr_sa o then 2 * mr_d o else mr_d o in
  match mr_root o with
  | None => Throw (PyError "NotImplementedError")
  | Some root =>
      if negb (root <? ninit) then Throw (PyError "IndexError") else
      (* both lists are filled in one loop, which raises if they are too short *)
      do refs <- largest (mr_nqb o) num (cprime_sq_mod k total_states ninit old root);
      do true_refs <- largest (mr_nqb o) num (cprime k total_states old root);
      if negb (existsb (det_eqb (mr_ref o)) true_refs) then Throw (PyError "NameError") else
      if negb (existsb (det_eqb (mr_ref o)) refs) then Throw (PyError "NameError") else
      Ok (if mr_phase o then true_refs else refs)
  end.

(** mrsqk.py:364-369 = 295-299: X on the occupied orbitals *)
Definition det_circuit (nqb : nat) (ref : list nat) : res (list gate) :=
  foreach (seq 0 nqb) (fun j U => do v <- py_get ref j; if Nat.eqb v 1 then do g <- py_gate2 "X" j j; Ok (U ++ [g])%list else Ok U) [].
(** mrsqk.py:355-387 (build_classical_CI_mats) *)
Definition ci_step (o : mr_options) (i : nat) (ref : list nat) (st : mat * list (list C) * list (list C)) : res (mat * list (list C) * list (list C)) :=
  do Un <- det_circuit (mr_nqb o) ref;
  do QC <- apply_circuit (new_computer (mr_nqb o)) Un;
  let om := (snd (fst st) ++ [coeff QC])%list in
  do QH <- apply_operator QC (mr_ham o);
  let Hom := (snd st ++ [coeff QH])%list in
  do h <- foreach (seq 0 (length om)) (fun j h =>
     do a <- py_get om i;
     do b <- py_get Hom j;
     do v <- vdot a b;
     let h := mset h i j v in
     Ok (mset h j i (Cconj (h i j)))) (fst (fst st));
  Ok (h, om, Hom).
Definition build_classical_CI_mats (o : mr_options) (refs : list (list nat)) : res mat :=
  do st <- foreach (combine (seq 0 (length refs)) refs) (fun ir st => ci_step o (fst ir) (snd ir) st) (mzero, [], []);
  Ok (fst (fst st)).

(** mrsqk.py:616-630: _pre_sa_ref_lst and num_refs_per_config *)
Definition spin_complements (refs : list (list nat)) : res (list (list nat) * list nat) :=
  foreach refs (fun ref st =>
    if existsb (det_eqb ref) (fst st) then Ok st
    else if open_shell ref then
      do temp <- build_eq_dets (2 ^ Nat.div (length ref) 2 + 1) ref;
      Ok ((fst st ++ temp)%list, (snd st ++ [length temp])%list)
    else Ok ((fst st ++ [ref])%list, (snd st ++ [1])%list)) ([], []).
(** mrsqk.py:646-660: the first root >= r whose first coefficient is not negligible *)
Fixpoint adjusted_root (fuel k : nat) (evecs : nat -> nat -> R) (r : nat) : res nat :=
  match fuel with
  | O => Throw (PyError "IndexError")
  | S f => if negb (r <? k) then Throw (PyError "IndexError") else if Rltb (Rabs (evecs 0 r)) 1e-6 then adjusted_root f k evecs (S r) else Ok r
  end.
(** consecutive pieces of the given lengths *)
Fixpoint pieces {A} (l : list A) (lens : list nat) : list (list A) :=
  match lens with [] => [] | n :: r => firstn n l :: pieces (skipn n l) r end.
(** mrsqk.py:671-674 *)
Definition normalised (v : list R) : list R := map (fun x => (x / sqrt (fold_left (fun s x => s + x * x) v 0))%R) v.
(** mrsqk.py:704-709: val is set to zero again for each coefficient *)
Definition importance (v : list R) : R := fold_left (fun _ c => (0 + c * c)%R) v 0%R.
(** mrsqk.py:607-737 (build_sa_refs) *)
Definition build_sa_refs (eig : eig_oracle) (o : mr_options) (single_det_refs : list (list nat)) : res (list (list (R * list nat))) :=
  if negb (mr_fast o) then Throw (PyError "NotImplementedError") else
  do pre <- spin_complements single_det_refs;
  let dets := fst pre in let k := length dets in
  do h <- build_classical_CI_mats o dets;
  let e := eig k h in
  let idxs := sorted_largest_idxs (fst e) false in
  let sorted_evecs i n := Re (snd e i (snd (nth n idxs (C0, 0)))) in
  do root <- (if negb (0 <? k) then Throw (PyError "IndexError")
              else if Rltb (Rabs (sorted_evecs 0 0)) 1e-6 then adjusted_root k k sorted_evecs 1
              else match mr_root o with None => Throw (PyError "IndexError") | Some r => if r <? k then Ok r else Throw (PyError "IndexError") end);
  let target_state := map (fun i => sorted_evecs i root) (seq 0 k) in
  let basis_coeff := pieces target_state (snd pre) in
  let det_lst := pieces dets (snd pre) in
  let sorted_importance := sorted_largest_idxs (map (fun v => RtoC (importance v)) basis_coeff) true in
  foreach (seq 0 (mr_d o)) (fun i l =>
    do p <- py_get sorted_importance i;
    do c <- py_get basis_coeff (snd p);
    do d <- py_get det_lst (snd p);
    Ok (l ++ [combine (normalised c) d])%list) [].

(** the evolution circuit and its phase: mrsqk.py:301-306 = 403-410 *)
Definition mr_evolve (o : mr_options) (m : nat) : res (list gate * C) :=
  trotterize (mr_ham o) (mkC 0 (- (INR m * mr_dt o))) (mr_trotter o) 1.
(** mrsqk.py:291-310: the state for reference ref and power m of the step; phase1 keeps its
    value from one state to the next (None: not assigned yet) *)
Definition det_state (o : mr_options) (ref : list nat) (m : nat) (phase1 : option C) : res (computer * option C) :=
  do Um <- det_circuit (mr_nqb o) ref;
  let phase1 := if existsb (fun j => Nat.eqb (nth j ref 0) 1) (seq 0 (mr_nqb o)) then Some C1 else phase1 in
  do Up <- (if 0 <? m then do r <- mr_evolve o m; Ok ((Um ++ fst r)%list, Some (snd r)) else Ok (Um, phase1));
  do QC <- apply_circuit (new_computer (mr_nqb o)) (fst Up);
  match snd Up with None => Throw (PyError "UnboundLocalError") | Some ph => Ok (apply_constant QC ph, snd Up) end.
(** mrsqk.py:401-424: the same for a spin adapted reference *)
Definition sa_state (o : mr_options) (ref : list (R * list nat)) (m : nat) : res computer :=
  do Up <- (if 0 <? m then mr_evolve o m else Ok ([], C1));
  do l <- foreach ref (fun t l => do idx <- ref_to_basis_idx (snd t); Ok (l ++ [(N.to_nat idx, RtoC (fst t))])%list) [];
  do QC <- set_state (new_computer (mr_nqb o)) l;
  do QC <- apply_circuit QC (fst Up);
  Ok (apply_constant QC (snd Up)).
(** omega_lst and Homega_lst: mrsqk.py:289-315 and 399-428 *)
Definition push_state (o : mr_options) (QC : computer) (l : list (list C) * list (list C)) : res (list (list C) * list (list C)) :=
  do QH <- apply_operator QC (mr_ham o);
  Ok ((fst l ++ [coeff QC])%list, (snd l ++ [coeff QH])%list).
Definition det_states (o : mr_options) (refs : list (list nat)) : res (list (list C) * list (list C)) :=
  do st <- foreach refs (fun ref st => foreach (seq 0 (mr_s o + 1)) (fun m st =>
     do QC <- det_state o ref m (snd st);
     do l <- push_state o (fst QC) (fst st);
     Ok (l, snd QC)) st) (([], []), None);
  Ok (fst st).
Definition sa_states (o : mr_options) (refs : list (list (R * list nat))) : res (list (list C) * list (list C)) :=
  foreach refs (fun ref l => foreach (seq 0 (mr_s o + 1)) (fun m l =>
     do QC <- sa_state o ref m;
     push_state o QC l) l) ([], []).
(** mrsqk.py:326-352 = 439-470; evals[None] is an array, real and not formattable: TypeError *)
Definition fill_mats (eig : eig_oracle) (o : mr_options) (N : nat) (l : list (list C) * list (list C)) : res (mat * mat) :=
  foreach (seq 0 N) (fun p hs =>
    do hs <- foreach (seq p (N - p)) (fun q hs =>
      do wp <- py_get (fst l) p;
      do Hq <- py_get (snd l) q;
      do wq <- py_get (fst l) q;
      do hv <- vdot wp Hq;
      let h := mset (fst hs) p q hv in
      let h := mset h q p (Cconj (h p q)) in
      do sv <- vdot wp wq;
      let s := mset (snd hs) p q sv in
      let s := mset s q p (Cconj (s p q)) in
      Ok (h, s)) hs;
    if mr_each o then
      do e <- canonical_geig_solve eig (p + 1) (snd hs) (fst hs) true;
      match mr_root o with None => Throw (PyError "TypeError") | Some r => do _x <- py_get (fst e) r; Ok hs end
    else Ok hs) (mzero, mzero).
(** mrsqk.py:131-192 (run) with qsdabc.py:85-118 *)
Inductive mr_refs := Dets (l : list (list nat)) | Adapted (l : list (list (R * list nat))).
Definition mr_states (o : mr_options) (refs : mr_refs) : res (list (list C) * list (list C)) := match refs with Dets l => det_states o l | Adapted l => sa_states o l end.
Definition ref_count (refs : mr_refs) : nat := match refs with Dets l => length l | Adapted l => length l end.
Definition mr_common_run (eig : eig_oracle) (o : mr_options) (refs : mr_refs) : res qk_result :=
  let N := ref_count refs * (mr_s o + 1) in
  do l <- mr_states o refs;
  do hs <- fill_mats eig o N l;
  do e <- canonical_geig_solve eig N (snd hs) (fst hs) true;
  do e0 <- py_get (fst e) 0;
  match mr_root o with
  | None => Throw (PyError "TypeError")
  | Some r => do er <- py_get (fst e) r; Ok (mkQkResult (snd hs) (fst hs) (fst e) (snd e) (Re e0) (Re er))
  end.
Definition mr_references (eig : eig_oracle) (o : mr_options) : res mr_refs :=
  do k <- mr_srqk eig o;
  do refs <- build_refs o k;
  if mr_sa o then do sa <- build_sa_refs eig o refs; Ok (Adapted sa) else Ok (Dets refs).
Definition mrsqk_run (eig : eig_oracle) (o : mr_options) : res qk_result :=
  do refs <- mr_references eig o;
  mr_common_run eig o refs.
