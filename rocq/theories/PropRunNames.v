(** The name of the optimizer: C87, C88, C90 and C91 runs do not depend on upper and lower case. *)
From Coq Require Import Reals String List Arith NArith ZArith Bool Lia.
From Verif Require Import CBase Result GateModel ComputerModel CircuitModel OperatorModel MeasureModel SQSpec SQModel SQPoolModel PyModel PointModel AnsatzModel GradModel DiisModel ResModel SelectModel MomentModel RunModel AdaptRunModel SpqeRunModel.
Import ListNotations.
Local Open Scope nat_scope.

(** the options with another optimizer *)
Definition with_optimizer (o : run_options) (name : string) : run_options :=
  mkRun name (use_analytic_grad o) (opt_thresh o) (opt_ftol o) (opt_maxiter o) (noise_factor o) (diis_max_dim o) (fast o) (print_summary_file o) (state_prep_type o) (ref o) (refprep o) (hf_orbitals o) (Nl o).
(** scipy's minimize does not distinguish upper and lower case *)
Definition CaseInsensitive (mz : minimizer) : Prop := forall a b, lower a = lower b -> mz a = mz b.

(** "Jacobi", "JACOBI", ... all select the quasi-Newton solver, whose run does not depend on the
    name *)
Theorem C87_optimizer_case : forall L o s name, lower (optimizer o) = "jacobi"%string -> lower name = "jacobi"%string -> vqe_run L o s = vqe_run L (with_optimizer o name) s.
Proof. intros L o s name H H'. unfold vqe_run. cbn [optimizer with_optimizer]. rewrite H, H'. reflexivity. Qed.
Print Assumptions C87_optimizer_case.
Theorem C88_optimizer_case : forall L o s name, CaseInsensitive (minimize L) -> lower name = lower (optimizer o) -> pqe_run L o s = pqe_run L (with_optimizer o name) s.
Proof.
  intros L o s name HC H. unfold pqe_run. cbn [state_prep_type with_optimizer ref refprep]. destruct (negb _); [reflexivity|]. destruct (fill_excited_dets _ _ _ _ _ _) as [pd|]; [|reflexivity]. cbn [bind]. change (orbital_energies L (with_optimizer o name) ?x) with (orbital_energies L o x). destruct (orbital_energies _ _ _) as [oe|]; [|reflexivity]. cbn [bind].
  assert (E : forall s' d x, pqe_solve L (with_optimizer o name) s' oe d x = pqe_solve L o s' oe d x).
  { intros s' d x. unfold pqe_solve. cbn [optimizer with_optimizer]. rewrite H. destruct (String.eqb _ _); [reflexivity|]. destruct (isin _ _); [|reflexivity]. unfold pqe_scipy. change (energy_of L (with_optimizer o name) s') with (energy_of L o s'). destruct (energy_of _ _ _ _); [|reflexivity]. cbn [bind]. cbn [optimizer with_optimizer]. rewrite (HC name (optimizer o) H).
    assert (EO : pqe_opts (with_optimizer o name) = pqe_opts o) by (unfold pqe_opts; cbn [optimizer with_optimizer opt_maxiter opt_thresh]; rewrite H; reflexivity). rewrite EO. reflexivity. }
  rewrite E. reflexivity.
Qed.
Print Assumptions C88_optimizer_case.

Lemma adapt_case L o ao Nm s name st : lower (optimizer o) = "jacobi"%string -> lower name = "jacobi"%string -> macro_iteration L (with_optimizer o name) ao Nm s st = macro_iteration L o ao Nm s st.
Proof.
  intros H H'. assert (EU : use_jacobi (with_optimizer o name) = use_jacobi o) by (unfold use_jacobi; cbn [optimizer with_optimizer]; now rewrite H, H').
  unfold macro_iteration. destruct (measure_gradient3 _ _ _) as [pg|]; [|reflexivity]. cbn [bind]. change (gradient_measures (with_optimizer o name) Nm) with (gradient_measures o Nm). destruct (gradient_measures _ _ _) as [m|]; [|reflexivity]. cbn [bind].
  assert (ES : select_opts (with_optimizer o name) ao = select_opts o ao) by (unfold select_opts; now rewrite EU). rewrite ES. destruct (update_ansatz _ _ _) as [sel|]; [|reflexivity]. cbn [bind]. destruct (a_conv sel); [reflexivity|]. unfold adapt_inner. rewrite EU. unfold use_jacobi. rewrite H. reflexivity.
Qed.
Theorem C90_optimizer_case : forall L o ao s name, lower (optimizer o) = "jacobi"%string -> lower name = "jacobi"%string -> adapt_vqe_run L o ao s = adapt_vqe_run L (with_optimizer o name) ao s.
Proof.
  intros L o ao s name H H'. unfold adapt_vqe_run. change (energy_of L (with_optimizer o name) ?x) with (energy_of L o x). destruct (energy_of _ _ _ _); [|reflexivity]. cbn [bind]. destruct (pool_lengths _ _) as [pn|]; [|reflexivity]. cbn [bind].
  assert (EL : forall fuel k st, macro_loop L (with_optimizer o name) ao (snd pn) s fuel k st = macro_loop L o ao (snd pn) s fuel k st). { induction fuel as [|f IH]; intros k st; [reflexivity|]. cbn [macro_loop]. rewrite (adapt_case L o ao (snd pn) s name st H H'). destruct (macro_iteration _ _ _ _ _ _) as [st1|]; [|reflexivity]. cbn [bind]. now rewrite IH. }
  rewrite EL. assert (EU : use_jacobi (with_optimizer o name) = use_jacobi o) by (unfold use_jacobi; cbn [optimizer with_optimizer]; now rewrite H, H'). rewrite EU. reflexivity.
Qed.
Print Assumptions C90_optimizer_case.

Lemma spqe_jacobi_case o name : lower name = lower (optimizer o) -> is_jacobi_run (with_optimizer o name) = is_jacobi_run o.
Proof. intros H. unfold is_jacobi_run. cbn [optimizer with_optimizer]. now rewrite H. Qed.
Lemma spqe_case L o so s oe pl k st name : CaseInsensitive (minimize L) -> lower name = lower (optimizer o) -> spqe_iteration L (with_optimizer o name) so s oe pl k st = spqe_iteration L o so s oe pl k st.
Proof.
  intros HC H. unfold spqe_iteration. change (energy_of L (with_optimizer o name) ?x) with (energy_of L o x). destruct (energy_of _ _ _ _); [|reflexivity]. cbn [bind]. change (ref (with_optimizer o name)) with (ref o). destruct (spqe_coeffs _ _ _ _ _) as [c|]; [|reflexivity]. cbn [bind]. destruct (spqe_update _ _ _ _ _) as [sel|]; [|reflexivity]. cbn [bind]. destruct (s_conv sel); [reflexivity|].
  assert (ER : forall s' t, spqe_residuals L (with_optimizer o name) s' pl t = spqe_residuals L o s' pl t) by (intros s' t; unfold spqe_residuals; now rewrite (spqe_jacobi_case o name H)).
  assert (EM : forall s' x, spqe_micro L (with_optimizer o name) s' oe pl x = spqe_micro L o s' oe pl x).
  { intros s' x. unfold spqe_micro. rewrite (spqe_jacobi_case o name H). cbn [optimizer with_optimizer]. rewrite H. destruct (is_jacobi_run o).
    - unfold spqe_jacobi. match goal with |- bind (quasi_newton L (with_optimizer o name) ?f _ _) _ = bind (quasi_newton L o ?g _ _) _ => assert (EF : f = g) end.
      { apply FunctionalExtensionality.functional_extensionality. intros t. now rewrite ER. }
      rewrite EF. reflexivity.
    - destruct (isin _ _); [|reflexivity]. unfold spqe_scipy. change (energy_of L (with_optimizer o name) s') with (energy_of L o s'). destruct (energy_of _ _ _ _); [|reflexivity]. cbn [bind optimizer with_optimizer]. rewrite (HC name (optimizer o) H).
      assert (EO : pqe_opts (with_optimizer o name) = pqe_opts o) by (unfold pqe_opts; cbn [optimizer with_optimizer opt_maxiter opt_thresh]; rewrite H; reflexivity). rewrite EO.
      assert (EF : spqe_objective L (with_optimizer o name) s' pl = spqe_objective L o s' pl). { apply FunctionalExtensionality.functional_extensionality. intros t. unfold spqe_objective. now rewrite ER. } rewrite EF. reflexivity. }
  rewrite EM. reflexivity.
Qed.
Theorem C91_optimizer_case : forall L o so sy s name, CaseInsensitive (minimize L) -> lower name = lower (optimizer o) -> spqe_full_run L o so sy s = spqe_full_run L (with_optimizer o name) so sy s.
Proof.
  intros L o so sy s name HC H. unfold spqe_full_run. cbn [state_prep_type with_optimizer ref]. destruct (negb _); [reflexivity|]. destruct (build_pool _ _ _ _ _) as [pl|]; [|reflexivity]. cbn [bind]. change (orbital_energies L (with_optimizer o name) s) with (orbital_energies L o s). destruct (orbital_energies _ _ _) as [oe|]; [|reflexivity]. cbn [bind].
  assert (EL : forall fuel k st, spqe_macro_loop L (with_optimizer o name) so s oe pl fuel k st = spqe_macro_loop L o so s oe pl fuel k st). { induction fuel as [|f IH]; intros k st; [reflexivity|]. cbn [spqe_macro_loop]. destruct (s_stop (ss_sel st)); [reflexivity|]. rewrite (spqe_case L o so s oe pl k st name HC H). destruct (spqe_iteration _ _ _ _ _ _ _ _) as [st1|]; [|reflexivity]. cbn [bind]. now rewrite IH. }
  rewrite EL. reflexivity.
Qed.
Print Assumptions C91_optimizer_case.
(** the names of the tests and of the documentation *)
Example C91_names : lower "Jacobi" = "jacobi"%string /\ lower "BFGS" = "bfgs"%string /\ lower "Nelder-Mead" = lower "nelder-mead" /\ CaseInsensitive (fun method opts f g x0 => do v <- f x0; Ok (mkOpt x0 v 1 0 None)).
Proof. split; [reflexivity|]. split; [reflexivity|]. split; [reflexivity|]. intros a b _. reflexivity. Qed.
