(** Results with C++/Python exceptions as values, checked vector access and
    fuelled loops. *)
From Coq Require Import String List Arith Lia Bool.
Import ListNotations.

(** [InvalidArg], [RuntimeErr], [OutOfRange] are the C++ exceptions the code
    throws; [UB_oob] marks an unchecked out-of-bounds vector access (undefined
    behaviour in C++); [OutOfFuel] marks an exhausted loop bound of the model
    (never the result of a theorem); [PyError] is a Python exception. *)
Inductive exn := InvalidArg | RuntimeErr | OutOfRange | UB_oob | OutOfFuel | PyError (kind : string).

Inductive res (A : Type) := Ok (a : A) | Throw (e : exn).
Arguments Ok {A} a.
Arguments Throw {A} e.

Definition bind {A B} (x : res A) (f : A -> res B) : res B :=
  match x with Ok a => f a | Throw e => Throw e end.
Notation "'do' x <- a ; b" := (bind a (fun x => b)) (at level 200, x pattern, a at level 100, b at level 200).

Definition is_ok {A} (x : res A) : bool := match x with Ok _ => true | Throw _ => false end.

(** vector::operator[] read and write *)
Definition vget {A} (v : list A) (i : nat) : res A :=
  match nth_error v i with Some x => Ok x | None => Throw UB_oob end.

Fixpoint list_set {A} (v : list A) (i : nat) (x : A) : list A :=
  match v, i with
  | [], _ => []
  | _ :: r, O => x :: r
  | a :: r, S i' => a :: list_set r i' x
  end.

Definition vset {A} (v : list A) (i : nat) (x : A) : res (list A) :=
  if i <? length v then Ok (list_set v i x) else Throw UB_oob.

(** [for (x : l) s = body x s] *)
Fixpoint foreach {X S} (l : list X) (body : X -> S -> res S) (s : S) : res S :=
  match l with
  | [] => Ok s
  | x :: r => do s' <- body x s; foreach r body s'
  end.

(** [for (; cond s;) s = body s] with explicit fuel *)
Fixpoint while_ {S} (fuel : nat) (cond : S -> bool) (body : S -> res S) (s : S) : res S :=
  match fuel with
  | O => Throw OutOfFuel
  | Datatypes.S f => if cond s then do s' <- body s; while_ f cond body s' else Ok s
  end.

Lemma bind_Ok {A B} (a : A) (f : A -> res B) : bind (Ok a) f = f a.
Proof. reflexivity. Qed.

Lemma foreach_app {X S} l1 l2 (body : X -> S -> res S) s :
  foreach (l1 ++ l2) body s = bind (foreach l1 body s) (foreach l2 body).
Proof.
  revert s; induction l1 as [|x l1 IH]; intros s; simpl; [reflexivity|].
  destruct (body x s); simpl; auto.
Qed.

Lemma foreach_ext {X S} l (b1 b2 : X -> S -> res S) s :
  (forall x s, In x l -> b1 x s = b2 x s) -> foreach l b1 s = foreach l b2 s.
Proof.
  revert s; induction l as [|x l IH]; intros s H; simpl; [reflexivity|].
  rewrite H by (left; reflexivity). destruct (b2 x s); simpl; [|reflexivity].
  apply IH; intros; apply H; right; assumption.
Qed.

Lemma list_set_length {A} (v : list A) i x : length (list_set v i x) = length v.
Proof. revert i; induction v; destruct i; simpl; auto. Qed.

Lemma nth_list_set {A} (v : list A) i x d k :
  i < length v -> nth k (list_set v i x) d = if k =? i then x else nth k v d.
Proof.
  revert i k; induction v as [|a v IH]; intros i k H; simpl in H; [lia|].
  destruct i, k; simpl; auto. apply IH; lia.
Qed.

Lemma vget_ok {A} (v : list A) i d : i < length v -> vget v i = Ok (nth i v d).
Proof. intros H. unfold vget. rewrite (nth_error_nth' v d H). reflexivity. Qed.

Lemma vset_ok {A} (v : list A) i x : i < length v -> vset v i x = Ok (list_set v i x).
Proof. intros H; unfold vset. apply Nat.ltb_lt in H; rewrite H; reflexivity. Qed.

Lemma vget_oob {A} (v : list A) i : length v <= i -> vget v i = Throw UB_oob.
Proof. intros H. unfold vget. apply nth_error_None in H; rewrite H; reflexivity. Qed.

Lemma vset_oob {A} (v : list A) i x : length v <= i -> vset v i x = Throw UB_oob.
Proof. intros H; unfold vset. apply Nat.ltb_ge in H; rewrite H; reflexivity. Qed.

Lemma list_ext {A} (d : A) (l1 l2 : list A) :
  length l1 = length l2 -> (forall i, i < length l1 -> nth i l1 d = nth i l2 d) -> l1 = l2.
Proof.
  revert l2; induction l1 as [|a l1 IH]; destruct l2 as [|b l2]; simpl; intros L H; try lia; auto.
  f_equal; [apply (H 0); lia|]. apply IH; [lia|]. intros i Hi; apply (H (S i)); lia.
Qed.
