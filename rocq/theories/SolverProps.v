(** * Properties of the solvers (jax_am/fem/solver.py, jax_am/fem/autodiff_utils.py). *)
From Coq Require Import FunctionalExtensionality Lra.
From Verif Require Import Prelude FemModel FemFacts FemSpec FemMatProofs FemExamples SolverModel SolverSpec SolverProofs SolverLmProofs SolverAdProofs SolverFemProofs SolverExamples.
Open Scope R_scope.

(** ** C44 *)
Theorem constrained_residual_exact : forall P r d n k, bc_ok P -> unknown P n k ->
  apply_bc_vec P (ravel P r) d (dof P n k) = constrained P r (reshape P d) n k.
Proof. intros P r d n k Hok Hu. rewrite apply_bc_vec_spec by assumption. rewrite ravel_dof by exact (proj2 Hu). reflexivity. Qed.
Print Assumptions constrained_residual_exact.
Theorem constrained_operator_exact : forall P ijv use_petsc x n k, bc_ok P -> unknown P n k ->
  lop_apply (num_total_dofs P) (get_A_fn P ijv use_petsc) x (dof P n k)
  = match prescribed P n k with Some _ => x (dof P n k) | None => coo_mul (num_total_dofs P) ijv x (dof P n k) end.
Proof. intros P ijv up x n k Hok Hu. exact (get_A_fn_spec P Hok ijv up x n k Hu). Qed.
Print Assumptions constrained_operator_exact.
Theorem constrained_operator_is_derivative : forall P (rf : vector -> vector) ijv use_petsc x d n k, bc_ok P -> unknown P n k ->
  derivable_pt_lim (fun t => rf (step x t d) (dof P n k)) 0 (coo_mul (num_total_dofs P) ijv d (dof P n k)) ->
  derivable_pt_lim (fun t => apply_bc P rf (step x t d) (dof P n k)) 0 (lop_apply (num_total_dofs P) (get_A_fn P ijv use_petsc) d (dof P n k)).
Proof.
  intros P rf ijv up x d n k Hok Hu H. rewrite get_A_fn_spec by assumption. pose proof (apply_bc_derivative P Hok rf x _ d n k Hu H) as Hd.
  rewrite row_elimination_spec in Hd by assumption. exact Hd.
Qed.
Print Assumptions constrained_operator_is_derivative.
Theorem preconditioner_is_diagonal : forall P ijv use_petsc i, bc_ok P -> (i < num_total_dofs P)%nat ->
  jacobi_preconditioner P ijv i = lop_apply (num_total_dofs P) (get_A_fn P ijv use_petsc) (unit_vec i) i.
Proof. intros P ijv up i Hok Hi. exact (jacobi_is_diagonal P Hok ijv up i Hi). Qed.
Print Assumptions preconditioner_is_diagonal.
Theorem problem_conditions_from_locations : forall V (F : fem V) inds iv jac cjac locs vecs fns pinfo eps P,
  fem_problem F inds iv jac cjac (Some (locs, vecs, fns)) pinfo eps = Ok P -> Forall (fun k => (k < vec F)%nat) vecs ->
  bc_ok P /\ forall n k, unknown P n k ->
    (forall i, last_applying F locs vecs i n k -> prescribed P n k = Some (nth i fns (fun _ => 0) (points F n))) /\
    ((forall i, ~ applies F locs vecs i n k) -> prescribed P n k = None).
Proof.
  intros V F inds iv jac cjac locs vecs fns pinfo eps P HP Hv.
  split; [exact (fem_bc_ok F inds iv jac cjac locs vecs fns pinfo eps P HP Hv)|].
  intros n k Hu. split.
  - intros i [H1 H2]. exact (fem_prescribed_last F inds iv jac cjac locs vecs fns pinfo eps P HP i n k Hu H1 H2).
  - intros H. exact (fem_prescribed_none F inds iv jac cjac locs vecs fns pinfo eps P HP n k H).
Qed.
Print Assumptions problem_conditions_from_locations.
Example overlapping_conditions : bc_ok (bar 5) /\ prescribed (bar 5) 0 0 = Some 3 /\ prescribed (bar 5) 1 0 = None
  /\ unknown (bar 5) 0 0 /\ unknown (bar 5) 1 0 /\ conditions (bar 5) = [((0, 0)%nat, 1); ((0, 0)%nat, 3)].
Proof. split; [exact (bar_bc_ok 5)|]. repeat split; cbn; lia. Qed.
Definition on_bottom (x : point) : bool := Rleb (x 1%nat) 0.
Example fem_problem_exists : exists P, fem_problem fem_scalar (bottom_inds fem_scalar) no_vars ex_jac ex_cjac (Some ([on_bottom], [0%nat], [fun x => x 0%nat])) None None = Ok P.
Proof. eexists. reflexivity. Qed.

(** ** C45 *)
Theorem linear_solve_meets_equation_and_conditions : forall ev P fuel precond guess use_petsc,
  bc_ok P -> exact_solvers ev -> exact_floats ev -> affine_problem P -> solvable_problem P use_petsc ->
  exists u, solver_row_elimination ev P fuel true precond guess use_petsc = Some (Ok u) /\ meets_conditions P u /\ in_equilibrium P u.
Proof. intros ev P fuel precond guess up Hok Hex Hfl Haf Hs. exact (linear_solve_solution P Hok ev Hex Hfl Haf up precond fuel guess Hs). Qed.
Print Assumptions linear_solve_meets_equation_and_conditions.
Theorem newton_solve_of_affine_problem_stops : forall ev P precond guess use_petsc,
  bc_ok P -> exact_solvers ev -> exact_floats ev -> affine_problem P -> solvable_problem P use_petsc ->
  exists u, solver_row_elimination ev P 1 false precond guess use_petsc = Some (Ok u).
Proof. intros ev P precond guess up Hok Hex Hfl Haf Hs. exact (nonlinear_affine_terminates P Hok ev Hex Hfl Haf up precond guess Hs). Qed.
Print Assumptions newton_solve_of_affine_problem_stops.
Theorem linear_guess_solves_loaded_system : forall ev P ijv use_petsc precond, bc_ok P -> exact_solvers ev ->
  (forall b, exists x, same (num_total_dofs P) (lop_apply (num_total_dofs P) (get_A_fn P ijv use_petsc) x) b) ->
  forall n k, unknown P n k -> let g := linear_guess_solve ev P (get_A_fn P ijv use_petsc) ijv precond in
  match prescribed P n k with Some v => g (dof P n k) = v | None => coo_mul (num_total_dofs P) ijv g (dof P n k) = loads P n k end.
Proof. intros ev P ijv up precond Hok Hex. exact (linear_guess_exact P Hok ev Hex ijv up precond). Qed.
Print Assumptions linear_guess_solves_loaded_system.
Theorem starting_guess_solves_constrained_rows : forall P dofs r n k, bc_ok P -> unknown P n k -> prescribed P n k <> None ->
  increment_guess P dofs (dof P n k) = - apply_bc_vec P r dofs (dof P n k).
Proof. intros P dofs r n k Hok. exact (increment_guess_spec P Hok dofs r n k). Qed.
Print Assumptions starting_guess_solves_constrained_rows.
Theorem finite_element_linear_solve : forall V (F : fem V) inds iv jac cjac locs vecs fns eps P ev grad fuel precond guess use_petsc,
  fem_problem F inds iv jac cjac (Some (locs, vecs, fns)) None eps = Ok P -> Forall (fun k => (k < vec F)%nat) vecs ->
  wf_mesh F -> iv_sized F iv -> (0 < num_cells F)%nat -> neumann_ok F inds -> (forall s, In s inds -> faces_ok F s) ->
  (forall sol d c a k, (c < num_cells F)%nat -> (a < num_nodes (f_ele F))%nat -> (k < vec F)%nat ->
     cell_force F iv (add_step sol 1 d) c a k = cell_force F iv sol c a k + jac_mul F (cell_jac F jac iv sol c) (cells_sol F d c) a k) ->
  (forall sol d x a k, In x (cauchy_faces F) -> (a < num_nodes (f_ele F))%nat -> (k < vec F)%nat ->
     cauchy_force F (add_step sol 1 d) x a k = cauchy_force F sol x a k + jac_mul F (cauchy_jac F cjac sol x) (cells_sol F d (fst (fst x))) a k) ->
  exact_solvers ev -> exact_floats ev -> solvable_problem P use_petsc ->
  exists u r, solver ev P grad fuel true precond guess use_petsc = Some (Ok u) /\
  (forall i n k, (n < num_total_nodes F)%nat -> last_applying F locs vecs i n k -> u n k = nth i fns (fun _ => 0) (points F n)) /\
  compute_residual_vars F inds u iv = Ok r /\
  (forall n k, (n < num_total_nodes F)%nat -> (k < vec F)%nat -> (forall i, ~ applies F locs vecs i n k) -> r n k = 0).
Proof.
  intros V F inds iv jac cjac locs vecs fns eps P ev grad fuel precond guess up HP Hv Hwf Hiv Hc Hn Hf H1 H2 Hex Hfl Hs.
  exact (fem_linear_solve F inds iv jac cjac locs vecs fns None eps P HP Hv Hwf Hiv Hc Hn Hf H1 H2 ev grad fuel precond guess up eq_refl Hex Hfl Hs).
Qed.
Print Assumptions finite_element_linear_solve.
Example bar_hypotheses : bc_ok (bar 5) /\ affine_problem (bar 5) /\ (forall use_petsc, solvable_problem (bar 5) use_petsc) /\ exact_solvers exact_env /\ exact_floats exact_env.
Proof. exact (conj (bar_bc_ok 5) (conj (bar_affine 5) (conj (bar_solvable 5) exact_env_ok))). Qed.
Example bar_solved : exists u, solver_row_elimination exact_env (bar 5) 0 true true None false = Some (Ok u) /\ u 0%nat 0%nat = 3 /\ u 1%nat 0%nat = 8.
Proof.
  destruct exact_env_ok as [H1 H2]. destruct (linear_solve_solution (bar 5) (bar_bc_ok 5) exact_env H1 H2 (bar_affine 5) false true 0 None (bar_solvable 5 false)) as (u & Hu & Hm & r & ijv & Hr & Hq).
  exists u. split; [exact Hu|]. assert (E : u 0%nat 0%nat = 3) by (apply Hm; [split; cbn; lia|reflexivity]). split; [exact E|].
  cbn in Hr. injection Hr as <- <-. specialize (Hq 1%nat 0%nat ltac:(split; cbn; lia) eq_refl). cbn in Hq. lra.
Qed.

(** ** C46 *)
(** missing: the linear branch and the periodic solver, for which it is false (below) *)
Theorem newton_returns_small_finite_residual_partial : forall ev P fuel precond guess use_petsc u,
  bc_ok P -> solver_row_elimination ev P fuel false precond guess use_petsc = Some (Ok u) ->
  exists d r ijv, u = reshape P d /\ newton_update P u = Ok (r, ijv) /\ all_finite ev (num_total_dofs P) d = true /\
  (exists nm, fnorm ev (num_total_dofs P) (apply_bc_vec P (ravel P r) d) = Fin nm /\ nm <= / 1000000) /\
  (exact_floats ev -> forall n k, unknown P n k -> Rabs (constrained P r u n k) <= / 1000000).
Proof.
  intros ev P fuel precond guess up u Hok H. destruct (nonlinear_returned P ev fuel precond guess up u H) as (d & r & ijv & E & Hr & Hf & Hn).
  exists d, r, ijv. split; [exact E|]. split; [exact Hr|]. split; [exact Hf|]. split; [exact Hn|]. intros Hfl n k Hu.
  destruct (nonlinear_returned_pointwise P Hok ev Hfl fuel precond guess up u H) as (r' & ijv' & Hr' & Hc). rewrite Hr in Hr'. injection Hr' as <- <-. exact (Hc n k Hu).
Qed.
Print Assumptions newton_returns_small_finite_residual_partial.
Theorem linear_solver_returns_large_residual_refuted : exists ev P u, bc_ok P /\ exact_floats ev /\
  solver_row_elimination ev P 0 true true None false = Some (Ok u) /\
  exists r ijv, newton_update P u = Ok (r, ijv) /\ unknown P 1 0 /\ constrained P r u 1 0 = -8.
Proof.
  exists lazy_env, (bar 5). eexists. split; [exact (bar_bc_ok 5)|]. split; [split; reflexivity|]. split; [reflexivity|].
  eexists _, _. split; [reflexivity|]. split; [split; cbn; lia|]. unfold linear_incremental_solver, assign_bc, vzero, vadd. cbn. unfold reshape, vzero. ring.
Qed.
Print Assumptions linear_solver_returns_large_residual_refuted.
Theorem linear_solver_returns_finite_partial : forall ev P fuel precond guess use_petsc u,
  solver_row_elimination ev P fuel true precond guess use_petsc = Some (Ok u) ->
  exists d r ijv, u = reshape P d /\ newton_update P u = Ok (r, ijv) /\ all_finite ev (num_total_dofs P) d = true /\
  exists nm, fnorm ev (num_total_dofs P) (apply_bc_vec P (ravel P r) d) = Fin nm.
Proof. intros ev P. exact (linear_returned P ev). Qed.
Print Assumptions linear_solver_returns_finite_partial.
Theorem nan_residual_stops_plain_solver : forall ev P fuel linear precond guess use_petsc,
  (forall n v, fnorm ev n v = NaN) -> (forall u, exists r ijv, newton_update P u = Ok (r, ijv)) ->
  solver_row_elimination ev P fuel linear precond guess use_petsc = Some (Err AssertionError).
Proof.
  intros ev P fuel linear precond guess up Hn Hnu.
  assert (Hh : forall d, exists r ijv, newton_update_helper P up d = Ok (apply_bc_vec P (ravel P r) d, get_A_fn P ijv up, ijv)).
  { intros d. destruct (Hnu (reshape P d)) as (r & ijv & Hr). exists r, ijv. exact (helper_ok P up d r ijv Hr). }
  unfold solver_row_elimination. destruct linear.
  - destruct (Hh (assign_bc P vzero)) as (r & ijv & ->). cbn [bind]. match goal with |- context [newton_update_helper P up ?d] => destruct (Hh d) as (r1 & ijv1 & ->) end.
    cbn [bind]. unfold finish. cbn [fst snd]. rewrite Hn. reflexivity.
  - match goal with |- match ?g with _ => _ end = _ => assert (Hg : exists d, g = Ok d) end.
    { destruct guess; [eauto|]. destruct (Hh vzero) as (r & ijv & ->). cbn. eauto. }
    destruct Hg as (d & ->). destruct (Hh d) as (r & ijv & ->). rewrite Hn. destruct fuel; cbn; reflexivity.
Qed.
Print Assumptions nan_residual_stops_plain_solver.
Theorem periodic_solver_returns_nan_refuted : forall ev P grad fuel linear precond guess,
  (forall n v, fnorm ev n v = NaN) -> has_periodic P = true -> (forall u, exists r ijv, newton_update P u = Ok (r, ijv)) ->
  exists u, solver ev P grad fuel linear precond guess false = Some (Ok u).
Proof.
  intros ev P grad fuel linear precond guess Hn Hp Hnu.
  assert (Hh : forall e d, exists r A, newton_update_helper_lm P grad false e d = Ok (r, A)).
  { intros e d. unfold newton_update_helper_lm. destruct (Hnu (reshape P d)) as (r & ijv & ->). cbn [bind fst snd]. unfold get_A_fn_and_res_aug. destruct (aug_ijv P ijv e). cbn. eauto. }
  unfold solver. rewrite Hp. unfold solver_lagrange_multiplier. destruct linear.
  - match goal with |- context [newton_update_helper_lm P grad false ?e ?d] => destruct (Hh e d) as (r & A & ->) end. cbn [bind]. eauto.
  - match goal with |- context [newton_update_helper_lm P grad false ?e ?d] => destruct (Hh e d) as (r & A & ->) end. cbn [bind].
    match goal with |- context [newton_update_helper_lm P grad false ?e ?d] => destruct (Hh e d) as (r1 & A1 & ->) end. cbn [bind].
    destruct fuel; cbn [lm_loop]; rewrite Hn; cbn [fl_gt]; eauto.
Qed.
Print Assumptions periodic_solver_returns_nan_refuted.
Example nan_runs : (forall n v, fnorm nan_env n v = NaN) /\ has_periodic (per 1) = true /\ (forall u, exists r ijv, newton_update (per 1) u = Ok (r, ijv))
  /\ (forall u, exists r ijv, newton_update (bar 5) u = Ok (r, ijv)).
Proof. repeat split; cbn; eauto. Qed.
Example bar_newton_returns : exists u, solver_row_elimination exact_env (bar 5) 1 false true None false = Some (Ok u).
Proof. destruct exact_env_ok as [H1 H2]. exact (nonlinear_affine_terminates (bar 5) (bar_bc_ok 5) exact_env H1 H2 (bar_affine 5) false true None (bar_solvable 5 false)). Qed.

(** ** C47 *)
Theorem augmented_residual_exact : forall P grad r x eps, bc_ok P -> periodic_ok P ->
  (forall e, is_grad (num_aug P) (Lagrangian_fn P e) (grad (Lagrangian_fn P e))) ->
  (forall n k, unknown P n k -> compute_residual_lm P grad (ravel P r) x eps (dof P n k) = r n k + eps * multiplier_force P x n k) /\
  num_aug P = (num_total_dofs P + length (constraint_values P (reshape P x)))%nat /\
  (forall j, (j < length (constraint_values P (reshape P x)))%nat ->
     compute_residual_lm P grad (ravel P r) x eps (num_total_dofs P + j)%nat = eps * nth j (constraint_values P (reshape P x)) 0).
Proof.
  intros P grad r x eps Hok Hper Hg. split; [|split].
  - intros n k Hu. rewrite residual_lm_unknown by assumption. rewrite ravel_dof by exact (proj2 Hu). reflexivity.
  - rewrite (constraint_values_len P Hok Hper). reflexivity.
  - intros j Hj. rewrite (constraint_values_len P Hok Hper) in Hj. exact (residual_lm_multiplier P Hok Hper grad Hg (ravel P r) x eps j Hj).
Qed.
Print Assumptions augmented_residual_exact.
Theorem augmented_matrix_is_derivative : forall P grad r r1 ijv eps x d, bc_ok P -> periodic_ok P -> ijv_ok (num_total_dofs P) ijv ->
  (forall e, is_grad (num_aug P) (Lagrangian_fn P e) (grad (Lagrangian_fn P e))) ->
  fst (aug_ijv P ijv eps) = num_aug P /\
  (forall n k, unknown P n k ->
     compute_residual_lm P grad (ravel P r1) (vadd x d) eps (dof P n k) - compute_residual_lm P grad (ravel P r) x eps (dof P n k)
       - coo_mul (num_aug P) (snd (aug_ijv P ijv eps)) d (dof P n k)
     = r1 n k - r n k - coo_mul (num_total_dofs P) ijv d (dof P n k)) /\
  (forall j, (num_total_dofs P <= j < num_aug P)%nat ->
     compute_residual_lm P grad (ravel P r1) (vadd x d) eps j - compute_residual_lm P grad (ravel P r) x eps j
       - coo_mul (num_aug P) (snd (aug_ijv P ijv eps)) d j = 0).
Proof.
  intros P grad r r1 ijv eps x d Hok Hper Hij Hg. destruct (aug_linearisation P Hok Hper grad Hg r r1 ijv eps x d Hij) as [H1 H2].
  split; [exact (proj1 (aug_ijv_spec P Hok Hper grad Hg ijv eps Hij))|]. split; [exact H1|].
  intros j Hj. unfold num_aug in Hj. replace j with (num_total_dofs P + (j - num_total_dofs P))%nat by lia. apply H2. lia.
Qed.
Print Assumptions augmented_matrix_is_derivative.
Theorem stationary_point_satisfies_all_conditions : forall P grad r ijv x eps, bc_ok P -> periodic_ok P ->
  (forall e, is_grad (num_aug P) (Lagrangian_fn P e) (grad (Lagrangian_fn P e))) ->
  eps <> 0 -> newton_update P (reshape P x) = Ok (r, ijv) -> same (num_aug P) (compute_residual_lm P grad (ravel P r) x eps) vzero ->
  constraints_hold P (reshape P x) /\ in_constrained_equilibrium P (reshape P x).
Proof. intros P grad r ijv x eps Hok Hper Hg. exact (stationary_point P Hok Hper grad Hg r ijv x eps). Qed.
Print Assumptions stationary_point_satisfies_all_conditions.
Theorem periodic_linear_solve : forall P grad ev fuel, bc_ok P -> periodic_ok P -> matrix_ok P ->
  (forall e, is_grad (num_aug P) (Lagrangian_fn P e) (grad (Lagrangian_fn P e))) -> exact_solvers ev -> affine_problem P ->
  let eps := match p_num_eps_attr P with Some e => e | None => 1 end in eps <> 0 -> solvable_augmented P eps ->
  exists u, solver_lagrange_multiplier ev P grad fuel true false = Some (Ok u) /\ constraints_hold P u /\ in_constrained_equilibrium P u.
Proof. intros P grad ev fuel Hok Hper Hm Hg Hex Haf eps. exact (linear_lm_solution P Hok Hper grad Hg ev Hm Hex Haf fuel). Qed.
Print Assumptions periodic_linear_solve.
Theorem periodic_newton_solve : forall P grad ev, bc_ok P -> periodic_ok P -> matrix_ok P ->
  (forall e, is_grad (num_aug P) (Lagrangian_fn P e) (grad (Lagrangian_fn P e))) -> exact_floats ev ->
  let eps := match p_num_eps_attr P with Some e => e | None => 1 end in eps <> 0 ->
  (forall fuel u, solver_lagrange_multiplier ev P grad fuel false false = Some (Ok u) ->
     constraints_within P (/ 1000000 / Rabs eps) u /\
     exists r ijv lam, newton_update P u = Ok (r, ijv) /\ forall n k, unknown P n k -> Rabs (r n k + multiplier_force P lam n k) <= / 1000000) /\
  (exact_solvers ev -> affine_problem P -> solvable_augmented P eps -> exists u, solver_lagrange_multiplier ev P grad 1 false false = Some (Ok u)).
Proof.
  intros P grad ev Hok Hper Hm Hg Hfl eps He. split.
  - intros fuel u. exact (nonlinear_lm_returned_pointwise P Hok Hper grad Hg ev Hm Hfl fuel u He).
  - intros Hex Haf. exact (nonlinear_lm_terminates P Hok Hper grad Hg ev Hm Hex Hfl Haf).
Qed.
Print Assumptions periodic_newton_solve.
Theorem finite_element_periodic_solve : forall V (F : fem V) inds iv jac cjac locs vecs fns info eps P ev grad fuel precond guess,
  fem_problem F inds iv jac cjac (Some (locs, vecs, fns)) (Some info) eps = Ok P -> Forall (fun k => (k < vec F)%nat) vecs -> Forall (fun t => (snd t < vec F)%nat) info ->
  wf_mesh F -> iv_sized F iv -> (0 < num_cells F)%nat -> neumann_ok F inds -> (forall s, In s inds -> faces_ok F s) ->
  (forall sol d c a k, (c < num_cells F)%nat -> (a < num_nodes (f_ele F))%nat -> (k < vec F)%nat ->
     cell_force F iv (add_step sol 1 d) c a k = cell_force F iv sol c a k + jac_mul F (cell_jac F jac iv sol c) (cells_sol F d c) a k) ->
  (forall sol d x a k, In x (cauchy_faces F) -> (a < num_nodes (f_ele F))%nat -> (k < vec F)%nat ->
     cauchy_force F (add_step sol 1 d) x a k = cauchy_force F sol x a k + jac_mul F (cauchy_jac F cjac sol x) (cells_sol F d (fst (fst x))) a k) ->
  (forall e, is_grad (num_aug P) (Lagrangian_fn P e) (grad (Lagrangian_fn P e))) -> exact_solvers ev ->
  (match eps with Some e => e | None => 1 end) <> 0 -> solvable_augmented P (match eps with Some e => e | None => 1 end) ->
  exists u, solver ev P grad fuel true precond guess false = Some (Ok u) /\
  (forall i n k, (n < num_total_nodes F)%nat -> applies F locs vecs i n k -> u n k = nth i fns (fun _ => 0) (points F n)) /\
  (forall i A B mp v a, nth_error info i = Some (A, B, mp, v) -> (a < num_total_nodes F)%nat -> A (points F a) = true ->
     exists b, (b < num_total_nodes F)%nat /\ B (points F b) = true /\ dist (dim F) (mp (points F a)) (points F b) < EPS /\ u a v = u b v) /\
  in_constrained_equilibrium P u.
Proof.
  intros V F inds iv jac cjac locs vecs fns info eps P ev grad fuel precond guess HP Hv Hpv Hwf Hiv Hc Hn Hf H1 H2 Hg Hex He Hs.
  exact (fem_periodic_linear_solve F inds iv jac cjac locs vecs fns (Some info) eps P HP Hv Hpv Hwf Hiv Hc Hn Hf H1 H2 ev grad fuel precond guess info eq_refl Hg Hex He Hs).
Qed.
Print Assumptions finite_element_periodic_solve.
Theorem periodic_with_petsc_raises_refuted : forall ev P grad fuel linear precond guess,
  has_periodic P = true -> (forall u, exists r ijv, newton_update P u = Ok (r, ijv)) ->
  solver ev P grad fuel linear precond guess true = Some (Err UnboundLocalError).
Proof. intros ev P grad fuel linear precond guess Hp Hnu. unfold solver. rewrite Hp. exact (petsc_lm_raises P grad ev fuel linear Hnu). Qed.
Print Assumptions periodic_with_petsc_raises_refuted.
Example periodic_hypotheses : bc_ok (per 4) /\ periodic_ok (per 4) /\ matrix_ok (per 4) /\ affine_problem (per 4) /\ solvable_augmented (per 4) 1 /\ has_periodic (per 4) = true
  /\ (forall e, is_grad (num_aug (per 4)) (Lagrangian_fn (per 4) e) (dgrad (Lagrangian_fn (per 4) e))) /\ pairs (per 4) = [(0, 1, 0)%nat].
Proof.
  exact (conj (per_bc_ok 4) (conj (per_periodic_ok 4) (conj (per_matrix_ok 4) (conj (per_affine 4) (conj (per_solvable 4) (conj eq_refl (conj (per_grad 4) eq_refl))))))).
Qed.
Example periodic_solved : exists u, solver exact_env (per 4) dgrad 0 true true None false = Some (Ok u) /\ u 0%nat 0%nat = 4 / 2 /\ u 1%nat 0%nat = 4 / 2.
Proof. exact (per_solution exact_env dgrad 4 0 true None (proj1 exact_env_ok) (per_grad 4)). Qed.

(** ** C52 *)
Theorem reverse_mode_exact : forall ev Pp rp m sol params vjp r ijv B dp u du v use_petsc,
  let P := Pp params in let N := num_total_dofs P in let A := lop_apply N (get_A_fn P ijv use_petsc) in
  bc_ok P -> exact_solvers ev -> newton_update P (reshape P sol) = Ok (r, ijv) ->
  differentiable N m (constraint_fn Pp rp) sol params A B -> linear_map N m B -> invertible N A ->
  vjp_ok N N vjp A sol A -> vjp_ok N m vjp (constraint_fn Pp rp sol) params B ->
  solution_path N (constraint_fn Pp rp) sol params dp u du ->
  exists g, implicit_vjp ev Pp rp vjp sol params v use_petsc = Ok g /\ dotN m g dp = dotN N v du.
Proof.
  intros ev Pp rp m sol params vjp r ijv B dp u du v up P N A Hok Hex Hr Hd HB Hi H1 H2 Hp.
  exact (implicit_vjp_exact ev Pp rp m sol params Hok vjp Hex ijv r B dp u du v up Hr Hd HB Hi H1 H2 Hp).
Qed.
Print Assumptions reverse_mode_exact.
Theorem forward_mode_exact : forall ev Pp rp m sol params jvp r ijv B dp u du,
  let P := Pp params in let N := num_total_dofs P in let A := lop_apply N (get_A_fn P ijv false) in
  bc_ok P -> exact_solvers ev -> newton_update P (reshape P sol) = Ok (r, ijv) ->
  differentiable N m (constraint_fn Pp rp) sol params A B -> linear_map N m B -> invertible N A ->
  jvp_ok N jvp (fun d => constraint_fn Pp rp d params) sol A -> jvp_ok N jvp (constraint_fn Pp rp sol) params B ->
  solution_path N (constraint_fn Pp rp) sol params dp u du ->
  exists d, implicit_jvp_helper ev Pp rp jvp sol params dp = Ok d /\ same N d du.
Proof.
  intros ev Pp rp m sol params jvp r ijv B dp u du P N A Hok Hex Hr Hd HB Hi H1 H2 Hp.
  exact (implicit_jvp_exact ev Pp rp m sol params Hok jvp Hex ijv r B dp u du Hr Hd HB Hi H1 H2 Hp).
Qed.
Print Assumptions forward_mode_exact.
Theorem forward_and_reverse_modes_adjoint : forall ev Pp rp m sol params vjp jvp r ijv B v dp,
  let P := Pp params in let N := num_total_dofs P in let A := lop_apply N (get_A_fn P ijv false) in
  bc_ok P -> exact_solvers ev -> newton_update P (reshape P sol) = Ok (r, ijv) -> invertible N A ->
  vjp_ok N N vjp A sol A -> vjp_ok N m vjp (constraint_fn Pp rp sol) params B ->
  jvp_ok N jvp (fun d => constraint_fn Pp rp d params) sol A -> jvp_ok N jvp (constraint_fn Pp rp sol) params B ->
  exists g x, implicit_vjp ev Pp rp vjp sol params v false = Ok g /\ implicit_jvp_helper ev Pp rp jvp sol params dp = Ok x /\ dotN m g dp = dotN N v x.
Proof.
  intros ev Pp rp m sol params vjp jvp r ijv B v dp P N A Hok Hex Hr Hi H1 H2 H3 H4.
  exact (modes_adjoint ev Pp rp m sol params Hok vjp jvp Hex ijv r B v dp Hr Hi H1 H2 H3 H4).
Qed.
Print Assumptions forward_and_reverse_modes_adjoint.
Theorem constrained_residual_differentiable : forall Pp rp m sol params ijv use_petsc B,
  let P := Pp params in let N := num_total_dofs P in
  (forall p, same_conditions (Pp p) P) -> (forall p, bc_ok (Pp p)) ->
  differentiable N m (fun d p => ravel P (rp p (reshape P d))) sol params (coo_mul N ijv) B ->
  differentiable N m (constraint_fn Pp rp) sol params (lop_apply N (get_A_fn P ijv use_petsc)) (free_rows P B).
Proof. intros Pp rp m sol params ijv up B P N H1 H2. exact (constraint_differentiable Pp rp m sol params (H2 params) ijv up B H1 H2). Qed.
Print Assumptions constrained_residual_differentiable.
Example loaded_bar_differentiated : forall p v, exists g d,
  implicit_vjp exact_env bar_p bar_r (dvjp 2) (bar_sol p) p v false = Ok g /\ g 0%nat = v 1%nat /\
  implicit_jvp_helper exact_env bar_p bar_r djvp (bar_sol p) p (unit_vec 0) = Ok d /\ d 0%nat = 0 /\ d 1%nat = 1.
Proof.
  intros p v. destruct (bar_ad_hypotheses p) as (Hr & Hd & HB & Hi & V1 & V2 & J1 & J2 & Hp). destruct exact_env_ok as [Hex _].
  destruct (reverse_mode_exact exact_env bar_p bar_r 1 (bar_sol p) p (dvjp 2) _ _ bar_B _ _ _ v false (bar_bc_ok _) Hex Hr Hd HB Hi V1 V2 Hp) as (g & Hg & Hgv).
  destruct (forward_mode_exact exact_env bar_p bar_r 1 (bar_sol p) p djvp _ _ bar_B _ _ _ (bar_bc_ok _) Hex Hr Hd HB Hi J1 J2 Hp) as (d & Hj & Hjd).
  exists g, d. split; [exact Hg|]. split; [|split; [exact Hj|split; [exact (Hjd 0%nat ltac:(cbn; lia))|exact (Hjd 1%nat ltac:(cbn; lia))]]].
  unfold dotN, sumN, unit_vec in Hgv. cbn in Hgv. lra.
Qed.

(** ** C86 *)
Theorem gradient_with_periodic_conditions_refuted : forall ev grad fuel precond guess v, exact_solvers ev ->
  (forall p e, is_grad (num_aug (per p)) (Lagrangian_fn (per p) e) (grad (Lagrangian_fn (per p) e))) ->
  forall p : vector,
  (exists u, solver ev (per_p p) grad fuel true precond guess false = Some (Ok u) /\ u 0%nat 0%nat = p 0%nat / 2 /\ u 1%nat 0%nat = p 0%nat / 2) /\
  derivable_pt_lim (fun t => dotN 2 v (per_sol (step p t (unit_vec 0)))) 0 ((v 0%nat + v 1%nat) / 2) /\
  exists g, implicit_vjp ev per_p per_r (dvjp 2) (per_sol p) p v false = Ok g /\ g 0%nat = v 0%nat.
Proof.
  intros ev grad fuel precond guess v Hex Hg p. split; [exact (per_solution ev grad (p 0%nat) fuel precond guess Hex (Hg (p 0%nat)))|]. split; [|exact (per_gradient ev p v false Hex)].
  eapply dl_eq; [apply (dl_line ((v 0%nat + v 1%nat) * p 0%nat / 2) ((v 0%nat + v 1%nat) / 2))| |reflexivity].
  intros s. unfold dotN, sumN, per_sol, step, unit_vec. cbn. field.
Qed.
Print Assumptions gradient_with_periodic_conditions_refuted.
Example gradient_environment : exact_solvers exact_env /\ forall p e, is_grad (num_aug (per p)) (Lagrangian_fn (per p) e) (dgrad (Lagrangian_fn (per p) e)).
Proof. exact (conj (proj1 exact_env_ok) per_grad). Qed.

(** ** C54 *)
Theorem damping_within_bounds : forall t cmin cmax, cmin <= cmax ->
  cmin <= calC t cmin cmax <= cmax /\ (cmin <= 2 * sqrt (Rmax t 0) <= cmax -> calC t cmin cmax = 2 * sqrt (Rmax t 0)).
Proof. intros t cmin cmax H. exact (conj (calC_within t cmin cmax H) (calC_value t cmin cmax)). Qed.
Print Assumptions damping_within_bounds.
Theorem dynamic_relaxation_returns_refuted : forall ev P rest, dynamic_relax_solve ev P rest = Err UnboundLocalError.
Proof. exact dynamic_relax_raises. Qed.
Print Assumptions dynamic_relaxation_returns_refuted.
Example damping_value : calC 4 0 10 = 4 /\ calC 100 0 10 = 10 /\ calC (-1) 1 10 = 1.
Proof.
  assert (S4 : sqrt 4 = 2) by (replace 4 with (2 * 2) by ring; apply sqrt_square; lra).
  assert (S100 : sqrt 100 = 10) by (replace 100 with (10 * 10) by ring; apply sqrt_square; lra).
  split; [|split]; unfold calC, Rltb.
  - destruct (Rlt_dec 4 0); [lra|]. cbv iota. rewrite S4. destruct (Rlt_dec (2 * 2) 0); [lra|]. cbv iota. destruct (Rlt_dec 10 (2 * 2)); lra.
  - destruct (Rlt_dec 100 0); [lra|]. cbv iota. rewrite S100. destruct (Rlt_dec (2 * 10) 0); [lra|]. cbv iota. destruct (Rlt_dec 10 (2 * 10)); lra.
  - destruct (Rlt_dec (-1) 0); [|lra]. cbv iota. rewrite sqrt_0. destruct (Rlt_dec (2 * 0) 1); [|lra]. cbv iota. destruct (Rlt_dec 10 1); lra.
Qed.
Close Scope R_scope.
