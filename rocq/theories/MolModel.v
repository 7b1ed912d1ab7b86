(** Model of adapters/molecule_adapters.py: what is computed from the integrals.  psi4, the json
    reader and printing are not modelled: their results are the arguments.  numpy arrays are
    functions of the indices. *)
From Coq Require Import Reals String List Arith Bool.
From Verif Require Import CBase Result Bits Spec SQSpec OperatorModel SQModel GradModel.
Import ListNotations.
Local Open Scope nat_scope.

Definition oeis := nat -> nat -> R.
Definition teis := nat -> nat -> nat -> nat -> R.

(** molecule_adapters.py:163-173: frozen_core_energy *)
Definition core_energy (c : nat) (h : oeis) (g : teis) : R :=
  if 0 <? c then
    let e := fold_left (fun e i => (e + 2 * h i i)%R) (seq 0 c) 0%R in
    fold_left (fun e i => fold_left (fun e j => (e + (2 * g i i j j - g i j j i))%R) (seq 0 c) e) (seq 0 c) e
  else 0%R.
(** molecule_adapters.py:177-180: mo_oeis after the update.  Each pair (p, q) of the loop writes
    only the entry (p, q) and reads only the two-electron integrals *)
Definition dressed (c lo hi : nat) (h : oeis) (g : teis) : oeis := fun p q =>
  if ((0 <? c) && ((lo <=? p) && (p <? hi)) && ((lo <=? q) && (q <? hi)))%bool
  then fold_left (fun x i => (x + (2 * g p q i i - g p i i q))%R) (seq 0 c) (h p q) else h p q.
(** molecule_adapters.py:183-212: Hsq; c, v: frozen_core, frozen_virtual *)
Definition add_pair (x : R) (p q r s : nat) (H : list fterm) : list fterm :=
  if (negb (Nat.eqb p q) && negb (Nat.eqb r s))%bool then sq_add_term H (RtoC x) [p; q] [r; s] else H.
Definition mol_sq (enuc : R) (nmo c v : nat) (h : oeis) (g : teis) : list fterm :=
  let hi := nmo - v in let rng := seq c (hi - c) in
  let H := sq_add_term [] (RtoC (enuc + core_energy c h g)) [] [] in
  let h := dressed c c hi h g in
  fold_left (fun H i => let ia := (i - c) * 2 in let ib := (i - c) * 2 + 1 in
    fold_left (fun H j => let ja := (j - c) * 2 in let jb := (j - c) * 2 + 1 in
      let H := sq_add_term H (RtoC (h i j)) [ia] [ja] in
      let H := sq_add_term H (RtoC (h i j)) [ib] [jb] in
      fold_left (fun H k => let ka := (k - c) * 2 in let kb := (k - c) * 2 + 1 in
        fold_left (fun H l => let la := (l - c) * 2 in let lb := (l - c) * 2 + 1 in
          let H := add_pair (g i l k j / 2) ia jb kb la H in
          let H := add_pair (g i l k j / 2) ib ja ka lb H in
          let H := add_pair (g i l k j / 2) ia ja ka la H in
          add_pair (g i l k j / 2) ib jb kb lb H) rng H) rng H) rng H) rng H.

(** molecule_adapters.py:143-154: hf_reference, orbital energies and irreps.  [orbitals]: the
    sorted pairs (energy, irrep); occ_a, occ_b: occupations per irrep; count: orbitals of each
    irrep met so far, which starts with the frozen core orbitals *)
Definition hf_lists (occ_a occ_b : list (list nat)) (frz : list nat) (orbitals : list (R * nat)) : res (list nat * list R * list nat) :=
  do st <- foreach orbitals (fun oi st =>
    let irr := snd oi in
    do n <- py_get (fst st) irr;
    do ra <- py_get occ_a irr; do a <- py_get ra n;
    do rb <- py_get occ_b irr; do b <- py_get rb n;
    let ref := fst (fst (snd st)) in let es := snd (fst (snd st)) in let is := snd (snd st) in
    Ok (list_set (fst st) irr (n + 1), (((ref ++ [a]) ++ [b])%list, (es ++ [fst oi])%list, (is ++ [irr])%list))) (frz, ([], [], []));
  Ok (snd st).

(** molecule_adapters.py:274-283: the Hamiltonian of create_external_mol *)
Definition external_sq (scalar : R) (oei : list (nat * nat * R)) (tei : list (nat * nat * nat * nat * R)) : list fterm :=
  let H := sq_add_term [] (RtoC scalar) [] [] in
  let H := fold_left (fun H t => let '(p, q, x) := t in sq_add_term H (RtoC x) [p] [q]) oei H in
  fold_left (fun H t => let '(p, q, r, s, x) := t in sq_add_term H (RtoC (x / 4)) [p; q] [s; r]) tei H.
(** molecule_adapters.py:285-289; writing past the end raises IndexError *)
Definition write_one (i : nat) (l : list nat) : res (list nat) := if i <? length l then Ok (list_set l i 1) else Throw (PyError "IndexError").
Definition external_ref (nso na nb : nat) : res (list nat) :=
  do ref <- foreach (seq 0 na) (fun i r => write_one (i * 2) r) (repeat 0 nso);
  foreach (seq 0 nb) (fun i r => write_one (i * 2 + 1) r) ref.
