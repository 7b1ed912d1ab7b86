(** Model of the commutator pool with which operators can be selected: fill_commutator_pool and
    measure_operators, src/qforte/abc/uccvqeabc.py:85-116. *)
From Coq Require Import Reals String List Arith Bool.
From Verif Require Import CBase Result GateModel ComputerModel OperatorModel MeasureModel SQModel SQPoolModel AnsatzModel GradModel.
Import ListNotations.

(** uccvqeabc.py:85-89; returns _pool_obj, whose operators are simplified in place, and
    _commutator_pool *)
Definition fill_commutator_pool (srt : sorter) (s : ucc) : res (sqpool * qpool) :=
  do r <- get_qubit_op_pool srt (pool s);
  do c <- join_as_commutator (snd r) (ham s);
  Ok (fst r, c).
(** uccvqeabc.py:91-116; np.testing.assert_allclose with a desired value of zero compares the
    magnitudes with atol only *)
Definition measure_operators (par : option schedule) (fast : bool) (s : ucc) (operators : qpool) (Ucirc : list gate) (idxs : list nat) : res (list R) :=
  if negb fast then Throw (PyError "NotImplementedError") else
  do myQC <- apply_circuit (init s) Ucirc;
  do r <- match idxs with
          | [] => direct_oppl_exp_val par myQC operators
          | _ => direct_idxd_oppl_exp_val par myQC operators idxs
          end;
  if forallb (fun g => negb (Rltb 1e-7 (Rabs (Im g)))) (fst r) then Ok (map Re (fst r)) else Throw (PyError "AssertionError").
