(** Model of src/qforte/sparse_tensor.{h,cc}, the sparse_matrix functions of gates,
    circuits and operators, and apply_matrix / apply_sparse_matrix. *)
From Coq Require Import Reals String List Arith Bool.
From Verif Require Import CBase Result Bits Spec GateModel ComputerModel CircuitModel OperatorModel.
Import ListNotations.

(** std::map<size_t, V> as the list of its (key, value) pairs in increasing key order *)
Fixpoint mfind {V} (k : nat) (m : list (nat * V)) : option V :=
  match m with [] => None | (k', v) :: r => if k =? k' then Some v else mfind k r end.
(** operator[] followed by assignment *)
Fixpoint mput {V} (k : nat) (v : V) (m : list (nat * V)) : list (nat * V) :=
  match m with
  | [] => [(k, v)]
  | (k', v') :: r => if k <? k' then (k, v) :: m else if k =? k' then (k, v) :: r else (k', v') :: mput k v r
  end.
Fixpoint merase {V} (k : nat) (m : list (nat * V)) : list (nat * V) :=
  match m with [] => [] | (k', v') :: r => if k =? k' then r else (k', v') :: merase k r end.

(** SparseVector, SparseMatrix (sparse_tensor.h:11-78) *)
Definition svec := list (nat * C).
Definition smat := list (nat * svec).

(** sparse_tensor.cc:5-11, 31-37 *)
Definition vec_get (v : svec) (I : nat) : C := match mfind I v with Some c => c | None => C0 end.
Definition sget (m : smat) (I J : nat) : C := match mfind I m with Some r => vec_get r J | None => C0 end.
(** values_[I]: default-constructs a missing row *)
Definition row (m : smat) (I : nat) : svec := match mfind I m with Some r => r | None => [] end.
(** sparse_tensor.cc:39-41 *)
Definition sset (m : smat) (I J : nat) (c : C) : smat := mput I (mput J c (row m I)) m.
(** temp[I].erase(J), sparse_tensor.cc:103 *)
Definition serase (m : smat) (I J : nat) : smat := mput I (merase J (row m I)) m.

(** sparse_tensor.cc:53-65 *)
Definition get_unique_js (m : smat) : list nat :=
  fold_left (fun js i => fold_left (fun js j => if existsb (Nat.eqb (fst j)) js then js else (js ++ [fst j])%list)
                                   (snd i) js) m [].

Definition thr16 : R := 1e-16%R.
(** sparse_tensor.cc:67-89 *)
Definition left_multiply (this L : smat) : smat :=
  let unique_js := get_unique_js this in
  fold_left (fun temp i =>
    fold_left (fun temp j =>
      let val := fold_left (fun val k => (val + snd k * sget this (fst k) j)%C) (snd i) C0 in
      if Rltb thr16 (Cabs val) then sset temp (fst i) j val else temp) unique_js temp) L [].
(** sparse_tensor.cc:91-108 *)
Definition sadd_mat (this M : smat) (factor : C) : smat :=
  fold_left (fun temp i =>
    fold_left (fun temp j =>
      let val := (factor * snd j + sget this (fst i) (fst j))%C in
      if Rltb thr16 (Cabs val) then sset temp (fst i) (fst j) val else serase temp (fst i) (fst j))
      (snd i) temp) M this.
(** sparse_tensor.cc:110-116 *)
Definition make_identity (nbasis : nat) : smat := fold_left (fun temp I => sset temp I I C1) (seq 0 nbasis) [].

Definition thr14 : R := 1e-14%R.
(** gate.cc:29-97 *)
Definition gate_sparse (nqubit : nat) (g : gate) : res smat :=
  let t := gtarget g in let c := gcontrol g in
  if nqubit <=? t then Throw RuntimeErr
  else if nqubit <=? c then Throw RuntimeErr
  else if t =? c then
    Ok (fold_left (fun m i => fold_left (fun m j =>
      if Rltb thr14 (Cabs (gmat g i j)) then
        fold_left (fun m I => if b2n (bit I t) =? j then sset m (upd I t (i =? 1)) I (gmat g i j) else m)
                  (seq 0 (2 ^ nqubit)) m
      else m) (seq 0 2) m) (seq 0 2) [])
  else
    Ok (fold_left (fun m i => fold_left (fun m j =>
      if Rltb thr14 (Cabs (gmat g i j)) then
        fold_left (fun m I =>
          if (2 * b2n (bit I c) + b2n (bit I t)) =? j
          then sset m (upd (upd I t (Nat.odd i)) c (Nat.odd (i / 2))) I (gmat g i j) else m)
                  (seq 0 (2 ^ nqubit)) m
      else m) (seq 0 4) m) (seq 0 4) []).

(** circuit.cc:201-217 *)
Definition circuit_sparse (nqubit : nat) (gs : list gate) : res smat :=
  match gs with
  | [] => Ok (make_identity (2 ^ nqubit))
  | g :: r =>
      do R <- gate_sparse nqubit g;
      foreach r (fun h R => do L <- gate_sparse nqubit h; Ok (left_multiply R L)) R
  end.

(** qubit_operator.cc:153-167 *)
Definition op_sparse (nqubit : nat) (o : qop) : res smat :=
  match o with
  | [] => Ok (make_identity (2 ^ nqubit))
  | _ => foreach o (fun t R => do L <- circuit_sparse nqubit (snd t); Ok (sadd_mat R L (fst t))) []
  end.

(** computer.cc:68-78 *)
Definition apply_sparse_matrix (q : computer) (M : smat) : res computer :=
  do v <- foreach M (fun i v => foreach (snd i) (fun j v =>
      do x <- vget (coeff q) (fst j); do y <- vget v (fst i); vset v (fst i) (y + snd j * x)%C) v) (zeros (nbasis q));
  Ok (set_coeff q v).

(** std::inner_product(a.begin(), a.end(), b.begin(), 0, add_c, complex_prod) with
    complex_prod(x,y) = conj(x)*y (computer.h:9-13); reading past the end of b is undefined *)
Fixpoint inner_product (a b : list C) (acc : C) : res C :=
  match a, b with
  | [], _ => Ok acc
  | x :: a', y :: b' => inner_product a' b' (acc + Cconj x * y)%C
  | _ :: _, [] => Throw UB_oob
  end.
(** computer.cc:56-66 *)
Definition apply_matrix (q : computer) (M : list (list C)) : res computer :=
  do v <- foreach (seq 0 (nbasis q)) (fun I v =>
     do rw <- vget M I; do x <- inner_product rw (coeff q) C0; vset v I x) (zeros (nbasis q));
  Ok (set_coeff q v).
