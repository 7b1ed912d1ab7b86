(** Property theorems C86 (continued): the irreducible representation an algorithm works in. *)
From Verif Require PropSQ.
From Coq Require Import Reals String List Arith NArith ZArith Bool Lia.
From Verif Require Import CBase Result Bits Spec SQSpec GateModel ComputerModel OperatorModel SQModel SQPhase SQProofs SQPoolSpec SQPoolModel SQPoolProofs SQPoolOps PointModel PointSpec PropPoint SelectModel SelectSpec SelectProofs SpqeProofs SpqeLoop PropSpqe PenModel.
Import ListNotations.
Local Open Scope nat_scope.

(** for a system with one of the supported point groups: the number of an irrep of its table is
    accepted and used, no request means the totally symmetric one, anything else is refused;
    without a point group the request has no effect *)
Theorem C86_irrep : forall name l, irreps_of_point_groups name = Ok l ->
  (forall k, k < length l -> choose_irrep (Some (name, l)) (Some (Z.of_nat k)) = Ok (Some (N.of_nat k))) /\
  (forall z, (z < 0 \/ Z.of_nat (length l) <= z)%Z -> choose_irrep (Some (name, l)) (Some z) = Throw (PyError "ValueError")) /\
  (exists c, choose_irrep (Some (name, l)) None = Ok (Some 0%N) /\ chars_of (lower name) l 0%N c /\ Forall (fun b => b = true) c) /\
  (forall z, choose_irrep None z = Ok None).
Proof.
  intros name l H. split; [|split; [|split]].
  - intros k Hk. unfold choose_irrep. replace (existsb _ _) with true; [f_equal; f_equal; lia|].
    symmetry. apply existsb_exists. exists (Z.of_nat k). split; [apply in_map, in_seq; lia|apply Z.eqb_refl].
  - intros z Hz. unfold choose_irrep. replace (existsb _ _) with false; [reflexivity|]. symmetry. apply not_true_iff_false. intros E.
    apply existsb_exists in E. destruct E as (y & Hy & E). apply Z.eqb_eq in E. subst y. apply in_map_iff in Hy. destruct Hy as (k & <- & Hk). apply in_seq in Hk. lia.
  - destruct (C43_unit name l H) as (s & c & E & HC & HF). exists c. split; [reflexivity|]. split; [|exact HF]. exists s. split; [exact E|exact HC].
  - reflexivity.
Qed.
(** every operator of the SPQE pool leads to a determinant of that symmetry: the characters of
    its occupied orbitals multiply to
    the characters of the chosen irrep *)
Theorem C86_spqe_pool_symmetry : forall srt m ref R name l orb_irreps request x req pool,
  legal_sort srt -> RefOf m ref R -> irreps_of_point_groups name = Ok l -> (m <= length orb_irreps) -> Forall (position_ok l) orb_irreps ->
  choose_irrep (Some (name, l)) request = Ok (Some x) -> (forall r, req = Some r -> (0 < r)%Z) ->
  build_pool srt ref orb_irreps x req = Ok pool ->
  forall D, In D (map fst pool) -> exists c, chars_of (lower name) l x c /\
    chars_product (lower name) l (map (fun p => nth (p / 2) orb_irreps 0%N) (orbitals (occ D) (2 * m))) c.
Proof.
  intros srt m ref R name l irr request x req pool HS HR HN HI HP HX HQ HB D HD.
  destruct (C46_pool srt m ref R irr x req HS HR HI HQ) as (pool' & EB & _ & HT & _). rewrite HB in EB. injection EB as <-.
  apply HT in HD. destruct HD as (_ & _ & HX' & _).
  assert (HO : Forall (fun p => p / 2 < length irr) (orbitals (occ D) (2 * m))).
  { apply Forall_forall. intros p Hp. apply orbitals_in in Hp. destruct Hp as [Hp _]. apply Nat.div_lt_upper_bound; lia. }
  destruct (C43_find_irrep name l irr _ HN HP HO) as (y & c & EF & HC & HPr). exists c. split; [|exact HPr].
  rewrite find_irrep_ok in EF by exact HO. assert (EY : total_irrep irr (orbitals (occ D) (2 * m)) = y) by congruence. rewrite <- HX', EY. exact HC.
Qed.
Example C86_irrep_nonvacuous : legal_sort PropSQ.isort /\ RefOf 2 [true; true; false; false] 3 /\
  irreps_of_point_groups "D2h" = Ok ["Ag"; "B1g"; "B2g"; "B3g"; "Au"; "B1u"; "B2u"; "B3u"]%string /\
  Forall (position_ok ["Ag"; "B1g"; "B2g"; "B3g"; "Au"; "B1u"; "B2u"; "B3u"]%string) [0; 5]%N /\
  (* the double excitation is totally symmetric; the single ones to 1001 and 0110 are B1u *)
  (exists pool, build_pool PropSQ.isort [true; true; false; false] [0; 5]%N 0 None = Ok pool /\ map fst pool = [12]%N) /\
  (exists pool, build_pool PropSQ.isort [true; true; false; false] [0; 5]%N 5 None = Ok pool /\ map fst pool = [6; 9]%N).
Proof.
  split; [apply PropSQ.isort_legal|]. split; [apply h2_ref|]. split; [reflexivity|]. split; [repeat constructor; cbn; lia|].
  split; (eexists; split; [vm_compute; reflexivity|]); reflexivity.
Qed.
Print Assumptions C86_irrep. Print Assumptions C86_spqe_pool_symmetry.
