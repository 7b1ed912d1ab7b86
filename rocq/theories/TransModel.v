(** Model of src/qforte/utils/transforms.py.  An organizer is a list of (coefficient, word);
    a word is a list of (letter, qubit).  Python's in-place update of the coefficients of
    fresh lists is modelled functionally.  Coefficients are complex numbers, qubits natural
    numbers. *)
From Coq Require Import Reals String List Arith Bool.
From Verif Require Import CBase Result Bits Spec GateModel OperatorModel PyModel.
Import ListNotations.
Local Open Scope string_scope.

Definition word := list (string * nat).
Definition organizer := list (C * word).

(** transforms.py:13-51.  A term is (list of (index, is creator), coefficient). *)
Definition fermop_term := (list (nat * bool) * C)%type.
(** lines 29-44: [s] is (i, an_count, cr_count, term_lst) *)
Definition fermop_step (half : nat) (an_cr : nat * bool) (s : nat * nat * nat * list nat) : res (nat * nat * nat * list nat) :=
  let '(i, an, cr, l) := s in
  if Nat.ltb i half && Nat.ltb 0 an then Throw (PyError "ValueError")
  else if Nat.leb half i && Nat.ltb half an then Throw (PyError "ValueError")
  else Ok (S i, if snd an_cr then an else S an, if snd an_cr then S cr else cr, (l ++ [fst an_cr])%list).
Definition fermop_to_sq_excitation (fermop : list fermop_term) : res (list (list nat * C)) :=
  mapM (fun term =>
    let num_ops := length (fst term) in
    if negb (Nat.eqb (num_ops mod 2) 0) then Throw (PyError "ValueError")
    else do s <- foreach (fst term) (fermop_step (num_ops / 2)) (0, 0, 0, [])%nat;
         let '(_, an, cr, l) := s in
         if negb (Nat.eqb an cr) then Throw (PyError "ValueError") else Ok (l, snd term)) fermop.

(** transforms.py:55-77 *)
Definition organizer_to_circuit (org : organizer) : res (list (C * list gate)) :=
  mapM (fun t => do gs <- mapM (fun letter => py_gate2 (fst letter) (snd letter) (snd letter)) (snd t); Ok (fst t, gs)) org.
(** transforms.py:81-107 *)
Definition circuit_to_organizer (o : list (C * list gate)) : organizer :=
  map (fun t => (fst t, map (fun g => (glabel g, gtarget g)) (snd t))) o.

(** transforms.py:269-284: the dictionary; a missing key raises KeyError *)
Definition contractions (a b : string) : res (C * string) :=
  if (a =? "X") && (b =? "Y") then Ok (Ci, "Z")
  else if (a =? "X") && (b =? "Z") then Ok ((- Ci)%C, "Y")
  else if (a =? "Y") && (b =? "X") then Ok ((- Ci)%C, "Z")
  else if (a =? "Y") && (b =? "Z") then Ok (Ci, "X")
  else if (a =? "Z") && (b =? "X") then Ok (Ci, "Y")
  else if (a =? "Z") && (b =? "Y") then Ok ((- Ci)%C, "X")
  else if (a =? "X") && (b =? "X") then Ok (C1, "I")
  else if (a =? "Y") && (b =? "Y") then Ok (C1, "I")
  else if (a =? "Z") && (b =? "Z") then Ok (C1, "I")
  else if (a =? "I") && (b =? "X") then Ok (C1, "X")
  else if (a =? "I") && (b =? "Y") then Ok (C1, "Y")
  else if (a =? "I") && (b =? "Z") then Ok (C1, "Z")
  else Throw (PyError "KeyError").

(** transforms.py:288: sorted(..., key=qubit), a stable sort *)
Fixpoint insert_letter (x : string * nat) (w : word) : word :=
  match w with
  | [] => [x]
  | y :: r => if Nat.leb (snd x) (snd y) then x :: w else y :: insert_letter x r
  end.
Definition sort_word (w : word) : word := fold_right insert_letter [] w.

(** transforms.py:302-304: the run of letters on the same qubit, and the rest *)
Fixpoint take_run (q : nat) (w : word) : word :=
  match w with x :: r => if Nat.eqb (snd x) q then x :: take_run q r else [] | [] => [] end.
(** transforms.py:311-321: coefficient and list of new letters *)
Fixpoint contract_run (run : word) (c : C) (letters : list string) : res (C * list string) :=
  match run with
  | x :: ((y :: _) as r) =>
      do k <- contractions (fst x) (fst y);
      contract_run r (c * fst k)%C (letters ++ [snd k])%list
  | _ => Ok (c, letters)
  end.
(** transforms.py:298-328: the outer while loop; [w] is the part of the word from idx1 on,
    the fuel is at least its length *)
Fixpoint condense_loop (fuel : nat) (w : word) (c : C) (out : word) : res (C * word) :=
  match w with
  | [] => Ok (c, out)
  | x :: _ =>
      match fuel with
      | O => Throw OutOfFuel
      | S f =>
          let run := take_run (snd x) w in
          let rest := skipn (length run) w in
          if Nat.eqb (length run) 1 then condense_loop f rest c (out ++ [x])%list
          else
            do k <- contract_run run c [];
            match snd k with
            | [] => Throw (PyError "IndexError")
            | l :: _ => condense_loop f rest (fst k) (if l =? "I" then out else out ++ [(l, snd x)])%list
            end
      end
  end.
(** transforms.py:267-332 *)
Definition pauli_condense (o : organizer) : res organizer :=
  mapM (fun t => let w := sort_word (snd t) in condense_loop (length w) w (fst t) []) o.

(** the dictionary of combine_like_terms (transforms.py:151-156), in insertion order *)
Fixpoint word_eqb (a b : word) : bool :=
  match a, b with
  | [], [] => true
  | x :: a', y :: b' => (fst x =? fst y) && Nat.eqb (snd x) (snd y) && word_eqb a' b'
  | _, _ => false
  end.
Fixpoint dict_add (w : word) (c : C) (d : list (word * C)) : list (word * C) :=
  match d with
  | [] => [(w, c)]
  | (w', c') :: r => if word_eqb w w' then (w', (c' + c)%C) :: r else (w', c') :: dict_add w c r
  end.
(** transforms.py:146-162 *)
Definition combine_like_terms (o : list organizer) : organizer :=
  let d := fold_left (fun d jw_term => fold_left (fun d t => dict_add (snd t) (fst t) d) jw_term d) o [] in
  map (fun wc => (snd wc, fst wc)) (filter (fun wc => Rltb 1e-10 (Cabs (snd wc))) d).

(** transforms.py:204-213 *)
Definition join_raw (L R : organizer) : organizer :=
  flat_map (fun l => map (fun r => ((fst l * fst r)%C, (snd l ++ snd r)%list)) R) L.
Definition join_organizers (L R : organizer) : res organizer :=
  do o <- pauli_condense (join_raw L R); Ok (combine_like_terms [o]).
(** transforms.py:228-247 *)
Definition join_H_Am_organizers (H A : organizer) : res organizer :=
  do o <- pauli_condense (flat_map (fun l => flat_map (fun r =>
       [((fst l * fst r)%C, (snd l ++ snd r)%list); ((- (fst l * fst r))%C, (snd r ++ snd l)%list)]) A) H);
  Ok (combine_like_terms [o]).
(** transforms.py:250-264 *)
Definition join_lr_organizers (cur : organizer) (X Y : C * word) : res organizer :=
  pauli_condense (match cur with
    | [] => [X; Y]
    | _ => flat_map (fun t => [((fst t * fst X)%C, (snd t ++ snd X)%list); ((fst t * fst Y)%C, (snd t ++ snd Y)%list)]) cur
    end).

(** transforms.py:165-201; the first len/2 indices are creators *)
Definition jw_letters (creator : bool) (p : nat) : (C * word) * (C * word) :=
  let zs := map (fun j => ("Z", j)) (seq 0 p) in
  ((mkC 0.5 0, zs ++ [("X", p)]), (if creator then mkC 0 (-0.5) else mkC 0 0.5, zs ++ [("Y", p)]))%list.
Definition get_single_term_jw_organizer (sq_term : list nat * C) : res organizer :=
  match fst sq_term with
  | [] => Ok [(snd sq_term, [])]
  | ops =>
      let n_creators := length ops / 2 in
      do o <- foreach (combine (seq 0 (length ops)) ops) (fun ip o =>
        let xy := jw_letters (Nat.ltb (fst ip) n_creators) (snd ip) in
        join_lr_organizers o (fst xy) (snd xy)) [];
      Ok (map (fun t => ((fst t * snd sq_term)%C, snd t)) o)
  end.
(** transforms.py:110-132 *)
Definition get_ucc_jw_organizer (sq : list (list nat * C)) (already_anti_herm : bool) : res organizer :=
  do T <- (if already_anti_herm then mapM get_single_term_jw_organizer sq
           else do ts <- mapM (fun t => do a <- get_single_term_jw_organizer t;
                                 do b <- get_single_term_jw_organizer (rev (fst t), (RtoC (-1) * snd t)%C);
                                 Ok [a; b]) sq;
                Ok (concat ts));
  Ok (combine_like_terms T).
(** transforms.py:135-143; without combine the nested list of organizers is returned *)
Definition get_jw_organizer (sq : list (list nat * C)) : res organizer :=
  do T <- mapM get_single_term_jw_organizer sq; Ok (combine_like_terms T).
