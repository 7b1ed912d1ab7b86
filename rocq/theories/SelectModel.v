(** Model of the operator selection and macro-iteration loops of src/qforte/ucc/adaptvqe.py and
    src/qforte/ucc/spqe.py.  Quantum measurements (gradients, residual coefficients) and the
    inner optimiser are oracles that may depend on the iteration number, the operators and the
    amplitudes.  Floating point numbers are reals; printing, resource counters of Pauli
    measurements, moment corrections and the verbose branches are left out. *)
From Coq Require Import Reals String List Arith NArith ZArith Bool.
From Verif Require Import CBase Result Spec SQSpec GateModel OperatorModel SQModel SQPoolModel.
Import ListNotations.
Local Open Scope R_scope.

Definition KeyError {A} : res A := Throw (PyError "KeyError").
Definition IndexError {A} : res A := Throw (PyError "IndexError").
(** list[-1] *)
Definition py_last {A} (l : list A) : res A := match rev l with x :: _ => Ok x | [] => IndexError end.

(** list.sort() on tuples (float, int): lexicographic, ascending *)
Definition tuple_ltb (a b : R * N) : bool :=
  Rltb (fst a) (fst b) || (negb (Rltb (fst b) (fst a)) && N.ltb (snd a) (snd b)).
Fixpoint tuple_ins (x : R * N) (l : list (R * N)) : list (R * N) :=
  match l with [] => [x] | y :: r => if tuple_ltb y x then y :: tuple_ins x r else x :: l end.
Definition tuple_sort (l : list (R * N)) : list (R * N) := fold_right tuple_ins [] l.

(** ---- adaptvqe.py ---- *)
Record adapt_opts := mkAO { avqe_thresh : R; adapt_maxiter : Z; cumulative : bool; add_equiv : bool; is_jacobi : bool }.
(** the attributes changed by the loop; [n_results] is len(_results) *)
Record astate := mkA { a_tops : list N; a_tamps : list R; a_energies : list R; a_norms : list R; a_nparams : list nat;
  a_ncnot : list nat; n_results : nat; a_final : option R; a_conv : bool }.
(** run, adaptvqe.py:110-135 *)
Definition adapt_init : astate := mkA [] [] [] [] [] [] 0 None false.
(** the loop over the gradients, adaptvqe.py:400-416: lgrst_grad, lgrst_grad_idx,
    (secnd_lgst_grad, secnd_lgrst_grad_idx); None is an unbound name *)
Definition scan_t := (R * option N * option (R * N))%type.
Definition scan_grad (mg : N * R) (s : scan_t) : res scan_t :=
  let largest := fst (fst s) in
  if Rltb (Rabs largest) (Rabs (snd mg)) then
    do second <- (if Rltb 0 (Rabs largest)
      then match snd (fst s) with Some i => Ok (Some (largest, i)) | None => Throw (PyError "UnboundLocalError") end
      else Ok (snd s));
    Ok (snd mg, Some (fst mg), second)
  else Ok s.
Definition enumerate (l : list R) : list (N * R) := combine (map N.of_nat (seq 0 (length l))) l.
Definition sum_sq (l : list R) : R := fold_left (fun a g => a + g * g) l 0.
(** conv_status, adaptvqe.py:460-468 *)
Definition adapt_conv (o : adapt_opts) (norm : R) (s : astate) : res (bool * option R) :=
  if Rltb (Rabs norm) (Rabs (avqe_thresh o)) then
    do e <- py_last (a_energies s);
    if is_jacobi o then Ok (true, Some e)
    else if Nat.eqb (n_results s) 0 then IndexError else Ok (true, Some e)
  else Ok (false, a_final s).
(** the cumulative branch, adaptvqe.py:430-443: (gm_sq_sum, temp_order_tops, amplitudes) *)
Definition adapt_cumulative (thresh : R) (grads : list R) (tamps : list R) : R * list N * list R :=
  fold_left (fun s g =>
    let total := fst (fst s) + fst g in
    if Rltb (thresh * thresh) total then (total, snd g :: snd (fst s), (snd s ++ [0])%list) else (total, snd (fst s), snd s))
    (tuple_sort (map (fun mg => (snd mg * snd mg, fst mg)) (enumerate grads))) (0, [], tamps).
(** update_ansatz, adaptvqe.py:380-458; [grads] is the result of measure_gradient3 *)
Definition update_ansatz (o : adapt_opts) (grads : list R) (s : astate) : res astate :=
  do sc <- foreach (enumerate grads) scan_grad (0, None, None);
  let norm := sqrt (sum_sq grads) in
  do cv <- adapt_conv o norm s;
  let s1 := mkA (a_tops s) (a_tamps s) (a_energies s) (a_norms s ++ [norm])%list (a_nparams s) (a_ncnot s) (n_results s) (snd cv) (fst cv) in
  if fst cv then Ok s1 else
  do ta <- (if cumulative o then
      let r := adapt_cumulative (avqe_thresh o) grads (a_tamps s) in
      Ok ((a_tops s ++ snd (fst r))%list, snd r)
    else match snd (fst sc) with
      | None => Throw (PyError "UnboundLocalError")
      | Some i =>
          let tops := (a_tops s ++ [i])%list in let tamps := (a_tamps s ++ [0])%list in
          if add_equiv o then
            match snd sc with
            | None => Throw (PyError "UnboundLocalError")
            | Some (g2, i2) =>
                if Rltb (Rabs (fst (fst sc)) - Rabs g2) 1e-5
                then Ok ((tops ++ [i2])%list, (tamps ++ [0])%list) else Ok (tops, tamps)
            end
          else Ok (tops, tamps)
      end);
  Ok (mkA (fst ta) (snd ta) (a_energies s) (a_norms s ++ [norm])%list (a_nparams s ++ [length (fst ta)])%list (a_ncnot s) (n_results s) (snd cv) false).
(** what the optimiser returns: (energy, amplitudes), and the CNOT count of the new circuit *)
Definition solver := nat -> list N -> list R -> R * list R * nat.
(** solve, adaptvqe.py:314-377 (and optimizer.py:88-106): the recorded results *)
Definition adapt_solve (o : adapt_opts) (solve : solver) (k : nat) (s : astate) : astate :=
  let r := solve k (a_tops s) (a_tamps s) in
  mkA (a_tops s) (snd (fst r)) (a_energies s ++ [fst (fst r)])%list (a_norms s) (a_nparams s) (a_ncnot s ++ [snd r])%list
    (if is_jacobi o then n_results s else S (n_results s)) (a_final s) (a_conv s).
(** the loop, adaptvqe.py:162-191; the result is the state and hit_maxiter *)
Fixpoint adapt_loop (o : adapt_opts) (grad : nat -> list N -> list R -> list R) (solve : solver) (fuel k : nat) (s : astate) : res (astate * bool) :=
  match fuel with
  | O => Throw OutOfFuel
  | S f =>
      if a_conv s then Ok (s, false) else
      do s1 <- update_ansatz o (grad k (a_tops s) (a_tamps s)) s;
      if a_conv s1 then Ok (s1, false) else
      let s2 := adapt_solve o solve k s1 in
      if Z.ltb (adapt_maxiter o - 1) (Z.of_nat (S k)) then Ok (s2, true)
      else adapt_loop o grad solve f (S k) s2
  end.
(** run, adaptvqe.py:110-232: final state and _Egs *)
Definition adapt_run (o : adapt_opts) (grad : nat -> list N -> list R -> list R) (solve : solver) : res (astate * R) :=
  do r <- adapt_loop o grad solve (S (Z.to_nat (adapt_maxiter o))) 0 adapt_init;
  let s := fst r in
  do final <- (if snd r then
      do e <- py_last (a_energies s);
      if negb (is_jacobi o) && Nat.eqb (n_results s) 0 then IndexError else Ok (Some e)
    else Ok (a_final s));
  match final with
  | None => Throw (PyError "AttributeError")
  | Some e => do _ <- py_last (a_ncnot s); Ok (s, e)
  end.

(** ---- spqe.py: the pool ---- *)
(** bin(x)[2:] as booleans, most significant first; bin(0) is 0b0 *)
Definition py_bin (x : N) : list bool :=
  match x with
  | N0 => [false]
  | Npos _ => map (fun i => N.testbit x (N.of_nat (N.size_nat x - 1 - i))) (seq 0 (N.size_nat x))
  end.
Definition py_count (l : list bool) : nat := length (filter (fun b => b) l).
(** [len(l) - i - 1 for i, x in enumerate(l) if x] *)
Definition ones_from_right (l : list bool) : list nat :=
  map (fun i => length l - i - 1)%nat (filter (fun i => nth i l false) (seq 0 (length l))).
(** spqe.py:152-153 *)
Definition mask_alpha : N := 0x5555555555555555%N.
Definition mask_beta : N := N.shiftl mask_alpha 1.
(** spqe.py:150: sum of b << i *)
Definition spqe_ref (ref : list bool) : N :=
  fold_left (fun (a : N) (ib : nat * bool) => a + N.shiftl (if snd ib then 1 else 0) (N.of_nat (fst ib)))%N (combine (seq 0 (length ref)) ref) 0%N.
(** sum(self._ref[0::2]), sum(self._ref[1::2]) *)
Fixpoint count_every (take : bool) (ref : list bool) : nat :=
  match ref with [] => O | b :: r => ((if take && b then 1 else 0) + count_every (negb take) r)%nat end.
(** spqe.py:157-171 *)
Definition spqe_rank (max_excit_rank : option Z) (nel : nat) : res nat :=
  match max_excit_rank with
  | None => Ok nel
  | Some r => if Z.leb r 0 then Throw (PyError "TypeError") else Ok (if Z.ltb (Z.of_nat nel) r then nel else Z.to_nat r)
  end.
(** [i for i, j in enumerate(reversed(excit)) if j == 1 and ref[i] == val] *)
Definition pick (excit ref : list bool) (val : bool) : list nat :=
  filter (fun i => nth i (rev excit) false && Bool.eqb (nth i ref false) val) (seq 0 (length excit)).
(** the pool and, entry by entry, its coefficient index (coeff_idx_to_pool_idx and its
    inverse, spqe.py:173-221) *)
Notation spqe_pool := (list (N * list fterm)).
Definition spqe_entry (srt : sorter) (ref : list bool) (irreps : list N) (irrep : N) (max_rank : nat) (I : N) (pool : spqe_pool) : res spqe_pool :=
  let alphas := py_bin (N.land I mask_alpha) in
  let betas := py_bin (N.land I mask_beta) in
  if Nat.eqb (py_count alphas) (count_every true ref) && Nat.eqb (py_count betas) (count_every false ref) then
    do g <- find_irrep irreps (ones_from_right alphas ++ ones_from_right betas)%list;
    if N.eqb g irrep then
      let x := N.lxor (spqe_ref ref) I in
      let excit := py_bin x in
      if N.eqb x 0 then Ok pool else
      if Nat.leb (Nat.div (py_count excit) 2) max_rank then
        let occ_idx := pick excit ref true in
        let unocc_idx := pick excit ref false in
        do t <- sq_simplify srt (sq_add_term (sq_add_term [] C1 unocc_idx occ_idx) (- C1)%C (rev occ_idx) (rev unocc_idx));
        Ok (pool ++ [(I, t)])%list
      else Ok pool
    else Ok pool
  else Ok pool.
(** range(1 << nqb) *)
Definition all_dets (nqb : nat) : list N := map N.of_nat (seq 0 (Nat.pow 2 nqb)).
Definition build_pool (srt : sorter) (ref : list bool) (irreps : list N) (irrep : N) (max_excit_rank : option Z) : res spqe_pool :=
  do max_rank <- spqe_rank max_excit_rank (count_every true ref + count_every false ref);
  foreach (all_dets (length ref)) (spqe_entry srt ref irreps irrep max_rank) [].

(** ---- spqe.py: selection ---- *)
Record spqe_opts := mkSO { spqe_thresh : R; spqe_maxiter : Z; sp_dt : R; sp_cumulative : bool }.
Record sstate := mkS { s_tops : list nat; s_tamps : list R; s_nbody : list nat; s_nparams : list nat; s_energies : list R; s_ncnot : list nat;
  s_conv : bool; s_stop : bool }.
(** spqe.py:113-146 *)
Definition spqe_init (ref : list bool) : sstate := mkS [] [] (repeat 0%nat (count_every true ref + count_every false ref)) [] [] [] false false.
(** coeff_idx_to_pool_idx[I] *)
Fixpoint pool_idx (I : N) (pool : spqe_pool) : res nat :=
  match pool with
  | [] => KeyError
  | e :: r => if N.eqb I (fst e) then Ok O else do i <- pool_idx I r; Ok (S i)
  end.
Definition coeff_idx (pool : spqe_pool) (i : nat) : res N := match nth_error pool i with Some e => Ok (fst e) | None => KeyError end.
(** nbody_counts[len(pool[i][1].terms()[0][1]) - 1] += 1; the index -1 is the last entry *)
Definition count_rank (pool : spqe_pool) (i : nat) (nbody : list nat) : res (list nat) :=
  match nth_error pool i with
  | None => Throw (PyError "IndexError")
  | Some e => match snd e with
      | [] => IndexError
      | t :: _ =>
          let k := match length (fcre t) with O => length nbody - 1 | S k => k end%nat in
          match nth_error nbody k with Some c => Ok (list_set nbody k (S c)) | None => IndexError end
      end
  end.
Definition mem (i : nat) (l : list nat) : bool := existsb (Nat.eqb i) l.
(** conv_status, spqe.py:593-614: (converged, stop_macro); otherwise both are unchanged *)
Definition spqe_conv (o : spqe_opts) (pool : spqe_pool) (norm_sq : R) (iter : nat) (s : sstate) : bool * bool :=
  if Rltb (Rabs norm_sq) (Rabs (spqe_thresh o * spqe_thresh o)) then (true, true)
  else if Z.ltb (spqe_maxiter o) (Z.of_nat iter) then (false, true)
  else if Nat.eqb (length (s_tops s)) (length pool) then (true, true)
  else (s_conv s, s_stop s).
(** np.real(np.conj(c) * c) *)
Definition abs_sq (c : C) : R := Re (Cconj c * c)%C.
(** spqe.py:523-531: the sorted residuals of the pool determinants not yet in the ansatz *)
Definition residuals (pool : spqe_pool) (coeff : N -> C) (tops : list nat) : res (list (R * N)) :=
  do used <- OperatorModel.mapM (coeff_idx pool) tops;
  Ok (tuple_sort (map (fun I => (abs_sq (coeff I), I)) (filter (fun I => negb (existsb (N.eqb I) used)) (map fst pool)))).
(** the cumulative loop, spqe.py:552-567: (res_sq_sum, temp_ops, nbody_counts) *)
Definition cumulative_body (o : spqe_opts) (pool : spqe_pool) (tops : list nat) (rI : R * N) (s : R * list nat * list nat) : res (R * list nat * list nat) :=
  let total := fst (fst s) + fst rI / (sp_dt o * sp_dt o) in
  if Rltb (spqe_thresh o * spqe_thresh o) total then
    do i <- pool_idx (snd rI) pool;
    if mem i tops then Ok (total, snd (fst s), snd s)
    else do nb <- count_rank pool i (snd s); Ok (total, (snd (fst s) ++ [i])%list, nb)
  else Ok (total, snd (fst s), snd s).
(** spqe.py:569-571: every element of the list is inserted at the front *)
Definition insert_all (l : list nat) (ta : list nat * list R) : list nat * list R :=
  fold_left (fun ta i => (i :: fst ta, 0 :: snd ta)) l ta.
(** the single-operator loop, spqe.py:575-589 *)
Fixpoint single_loop (pool : spqe_pool) (l : list (R * N)) (tops : list nat) (tamps : list R) (nbody : list nat) : res (list nat * list R * list nat) :=
  match l with
  | [] => Ok (tops, tamps, nbody)
  | rI :: r =>
      do i <- pool_idx (snd rI) pool;
      if mem i tops then single_loop pool r tops tamps nbody
      else do nb <- count_rank pool i nbody; Ok (i :: tops, 0 :: tamps, nb)
  end.
(** update_ansatz with M_omega = 'inf', spqe.py:427-443 and 522-591 *)
Definition spqe_update (o : spqe_opts) (pool : spqe_pool) (coeff : N -> C) (iter : nat) (s : sstate) : res sstate :=
  do res_sq <- residuals pool coeff (s_tops s);
  let norm_sq := fold_left (fun a r => a + fst r) res_sq 0 / (sp_dt o * sp_dt o) in
  let cs := spqe_conv o pool norm_sq iter s in
  if fst cs then Ok (mkS (s_tops s) (s_tamps s) (s_nbody s) (s_nparams s) (s_energies s) (s_ncnot s) (fst cs) (snd cs)) else
  do r <- (if sp_cumulative o then
      do t <- foreach res_sq (cumulative_body o pool (s_tops s)) (0, [], s_nbody s);
      Ok (insert_all (rev (snd (fst t))) (s_tops s, s_tamps s), snd t)
    else do t <- single_loop pool (rev res_sq) (s_tops s) (s_tamps s) (s_nbody s); Ok (fst t, snd t));
  Ok (mkS (fst (fst r)) (snd (fst r)) (snd r) (s_nparams s ++ [length (fst (fst r))])%list (s_energies s) (s_ncnot s) (fst cs) (snd cs)).
(** update_ansatz with a finite M_omega, spqe.py:445-520; [counts mu] is how often the
    determinant mu was drawn.  Only the selection (steps 4 and 5). *)
Definition spqe_update_sampled (pool : spqe_pool) (ndets : nat) (counts : N -> nat) (results : nat) (s : sstate) : res sstate :=
  let drawn := tuple_sort (map (fun mu => (INR (counts mu), mu)) (filter (fun mu => Nat.ltb 0 (counts mu)) (map N.of_nat (seq 0 ndets)))) in
  if Nat.eqb (length drawn) 1 then
    do _ <- py_last (s_energies s);
    if Nat.eqb results 0 then IndexError
    else Ok (mkS (s_tops s) (s_tamps s) (s_nbody s) (s_nparams s) (s_energies s) (s_ncnot s) true (s_stop s))
  else
    do r <- foreach (removelast drawn) (fun rI t =>
      if existsb (fun i => N.eqb (snd rI) (N.of_nat i)) (fst (fst t)) then Ok t
      else do i <- pool_idx (snd rI) pool;
        do nb <- count_rank pool i (snd t); Ok (i :: fst (fst t), 0 :: snd (fst t), nb)) (s_tops s, s_tamps s, s_nbody s);
    Ok (mkS (fst (fst r)) (snd (fst r)) (snd r) (s_nparams s ++ [length (fst (fst r))])%list (s_energies s) (s_ncnot s) false (s_stop s)).
Definition spqe_solver := nat -> list nat -> list R -> R * list R * nat.
Definition spqe_solve (solve : spqe_solver) (iter : nat) (s : sstate) : sstate :=
  let r := solve iter (s_tops s) (s_tamps s) in
  mkS (s_tops s) (snd (fst r)) (s_nbody s) (s_nparams s) (s_energies s ++ [fst (fst r)])%list (s_ncnot s ++ [snd r])%list (s_conv s) (s_stop s).
(** the macro-iterations, spqe.py:242-264, M_omega = 'inf' *)
Fixpoint spqe_loop (o : spqe_opts) (pool : spqe_pool) (coeff : nat -> list nat -> list R -> N -> C) (solve : spqe_solver) (fuel iter : nat) (s : sstate) : res sstate :=
  match fuel with
  | O => Throw OutOfFuel
  | S f =>
      if s_stop s then Ok s else
      do s1 <- spqe_update o pool (coeff iter (s_tops s) (s_tamps s)) iter s;
      if s_conv s1 then Ok s1 else
      spqe_loop o pool coeff solve f (S iter) (spqe_solve solve iter s1)
  end.
(** run, spqe.py:102-310: final state and _Egs *)
Definition spqe_run (srt : sorter) (o : spqe_opts) (ref : list bool) (irreps : list N) (irrep : N) (max_excit_rank : option Z)
    (coeff : nat -> list nat -> list R -> N -> C) (solve : spqe_solver) : res (spqe_pool * sstate * R) :=
  do pool <- build_pool srt ref irreps irrep max_excit_rank;
  do s <- spqe_loop o pool coeff solve (S (S (S (Z.to_nat (spqe_maxiter o))))) 1 (spqe_init ref);
  do e <- py_last (s_energies s);
  Ok (pool, s, e).
