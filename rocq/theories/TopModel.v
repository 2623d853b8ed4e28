(** * Model of the drivers in applications/fem/top_opt: L_shape.py, eigen.py, multi_material.py and
    plasticity.py. Definitions only. The elasticity class and the optimiser are modelled in MatModel and
    MmaModel; this file holds the constraint functions, the eigenvalue problem and the plastic load
    sequence. A design is a list of numbers (one row per flexible cell). jax.jacrev, jax.grad, the forward
    solvers and the SLEPc eigensolver are arguments. *)
From Verif Require Import Prelude FemModel MatModel FormModel.
Open Scope R_scope.

(** np.mean, np.max (of a non-empty array) *)
Definition mean (l : list R) : R := sumR l (fun x => x) / INR (length l).
Definition max_of (l : list R) : R := match l with [] => 0 | x :: r => fold_left Rmax r x end.

(** ** L_shape.py, 83-118 *)
Definition vf_half : R := 5 / 10.
Definition max_allowed_stress : R := 35 / 10 * 10 ^ 6.
(** the attributes stored on the function: computeConstraints.cp, .max_vm_stress, .vm_stress_PN *)
Record cstate : Type := mkCs { cs_cp : R; cs_max : R; cs_PN : R }.
(** 115-117 *)
Definition cs_init : cstate := mkCs 1 max_allowed_stress 1.
(** 99-100; 0 ** (1/12) is 0 *)
Definition vm_PN (vm : list R) : R :=
  let s := sumR vm (fun x => (x / max_allowed_stress) ^ 12) in
  if Reqb s 0 then 0 else Rpower s (1 / 12).
(** 101-102 *)
Definition cp_of (st : cstate) : R :=
  let qn := 5 / 10 in qn * cs_max st / (max_allowed_stress * cs_PN st) + (1 - qn) * cs_cp st.
Section LShape.
(** the cell averages of the von Mises stress for the solution fwd_pred(rho), 96-97 *)
Variable vm : list R -> list R.
(** jax.jacrev *)
Variable jacrev : (list R -> list R) -> list R -> list (list R).
(** computeGlobalVolumeConstraintFull, 94-104; it reads the stored attributes *)
Definition constraint_full (st : cstate) (rho : list R) : list R * cstate :=
  let g1 := mean rho / vf_half - 1 in
  let cp := cp_of st in
  let PN := vm_PN (vm rho) in
  let g2 := cp * PN - 1 in
  ([g1; g2], mkCs cp (max_of (vm rho)) PN).
(** computeConstraints, 93-113: the attributes are stored (109) before jacrev evaluates the function
    again (112) *)
Definition compute_constraints (st : cstate) (rho : list R) : list R * list (list R) * cstate :=
  let '(c, st') := constraint_full st rho in
  let gradc := jacrev (fun r => fst (constraint_full st' r)) rho in
  (c, gradc, st').
(** the attributes after the calls for a list of designs *)
Definition constraint_calls (rhos : list (list R)) : cstate :=
  fold_left (fun st rho => snd (compute_constraints st rho)) rhos cs_init.
End LShape.

(** ** multi_material.py, 73-93: the design rows are pairs *)
Definition multi_constraint (rho : list (R * R)) : R :=
  sumR rho (fun r => fst r * (snd r * 1 + (1 - snd r) * (4 / 10))) / INR (length rho) / (3 / 10) - 1.
Definition multi_rho_ini (num_flex : nat) : list (R * R) := repeat (3 / 10, 5 / 10) num_flex.

(** ** eigen.py *)
(** Stiffness.get_tensor_map, 25-44 *)
Definition stiffness_map (vars : list (list R)) (u_grad : mat) : mat :=
  match vars with [t :: _] => plane_stress (70 * 10 ^ 9) 5 t u_grad | _ => fun _ _ => 0 end.
(** Mass.get_mass_map, 53-57 *)
Definition mass_density_map (vars : list (list R)) (u : nat -> R) : nat -> R :=
  match vars with [t :: _] => fun k => t * (27 / 10 * 10 ^ 3) * u k | _ => fun _ => 0 end.
(** set_params, 47-49 and 59-61: each cell's row at each quadrature point *)
Definition theta_array (theta : nat -> R) (n : nat) : list (nat -> list R) := map (fun c => fun _ => [theta c]) (seq 0 n).
Definition stiffness_vars (n : nat) (theta : nat -> R) : internal_vars (list R) := mkIv [] [theta_array theta n] None (fun _ => []).
Definition mass_vars (n : nat) (theta : nat -> R) : internal_vars (list R) := mkIv [theta_array theta n] [] None (fun _ => []).
(** vAv_fn, 100-105 (no Dirichlet conditions: apply_bc changes nothing) *)
Definition vAv {V : Type} (F : fem V) (iv : internal_vars V) (v : nodal) : res R :=
  bind (compute_residual_vars F [] v iv) (fun r =>
  Ok (sumN (num_total_nodes F) (fun n => sumN (vec F) (fun k => v n k * r n k)))).
(** the kept pairs, 160-181: indices 3, 4, 5 of the n_requested = 10 pairs. np.stack([]) raises ValueError
    when nothing converged; with fewer than ten pairs getEigenpair
    fails inside SLEPc (shown as IndexError). *)
Definition kept {X : Type} (pairs : list X) : res (list X) :=
  match pairs with
  | [] => Err ValueError
  | _ => if Nat.ltb (length pairs) 10 then Err IndexError else Ok (firstn 3 (skipn 3 pairs))
  end.
Section Eigen.
(** problem_K and problem_M; [grad f theta c] is the entry of jax.grad(f)(theta) for the cell c *)
Variables FK FM : fem (list R).
Variable grad : ((nat -> R) -> R) -> (nat -> R) -> nat -> R.
Definition val (x : res R) : R := match x with Ok a => a | Err _ => 0 end.
Definition vKv (theta : nat -> R) (v : nodal) : R := val (vAv FK (stiffness_vars (num_cells FK) theta) v).
Definition vMv (theta : nat -> R) (v : nodal) : R := val (vAv FM (mass_vars (num_cells FM) theta) v).
(** 175 *)
Definition d_eigen_val (theta : nat -> R) (lambda : R) (v : nodal) : nat -> R := fun c =>
  (grad (fun t => vKv t v) theta c - lambda * grad (fun t => vMv t v) theta c) / vMv theta v.
(** eigen_analysis, 94-188, from the pairs the solver returns *)
Definition eigen_analysis (pairs : list (R * nodal)) (theta : nat -> R) : res (list R * list (nat -> R)) :=
  bind (kept pairs) (fun l => Ok (map fst l, map (fun p => d_eigen_val theta (fst p) (snd p)) l)).
(** jax.scipy.special.logsumexp *)
Definition logsumexp (l : list R) : R := ln (sumR l exp).
(** min_eigen_vals_cstr, 239-244 *)
Definition min_freq : R := 10 ^ 6.
Definition soft_min (eigen_vals : list R) : R := let alpha := 10 in - 1 / alpha * logsumexp (map (fun x => - alpha * x) eigen_vals).
Definition eigen_cstr (eigen_vals : list R) : R := 1 - soft_min eigen_vals / min_freq.
(** computeConstraints, 230-258: [egrad] is jax.grad(min_eigen_vals_cstr), [vgrad] jax.grad of the volume *)
Variable egrad : (list R -> R) -> list R -> list R.
Variable vgrad : (list R -> R) -> list R -> list R.
Definition eigen_constraints (solve : (nat -> R) -> list (R * nodal)) (rho : list R) : res (list R * (list R * (nat -> R))) :=
  let theta c := nth c rho 0 in
  let vol r := mean r / vf_half - 1 in
  let c1 := vol rho in
  bind (eigen_analysis (solve theta) theta) (fun '(eigen_vals, d_eigen_vals) =>
  let c2 := eigen_cstr eigen_vals in
  let w := egrad eigen_cstr eigen_vals in
  let gradc2 := fun c => sumN (length d_eigen_vals) (fun j => nth j w 0 * nth j d_eigen_vals (fun _ => 0) c) in
  Ok ([c1; c2], (vgrad vol rho, gradc2))).
End Eigen.

(** ** plasticity.py *)
(** the entries of params = (sigmas, epsilons, thetas) at one quadrature point *)
Record pvars : Type := mkPv { pv_sigma : mat; pv_epsilon : mat; pv_theta : R * R }.
(** stress_return_map, 50-71 (strain 38-41, stress 43-48, safe_sqrt and safe_divide 31-36) *)
Definition top_E (theta : R * R) : R := simp 70 (70 * 10 ^ 3) (fst theta) 3.
Definition top_sig0 (theta : R * R) : R := 250 + snd theta * 100.
Definition top_return_map (d : nat) (p : pvars) (u_grad : mat) : mat :=
  let epsilon_crt := strain u_grad in
  let epsilon_inc := fun i j => epsilon_crt i j - pv_epsilon p i j in
  let sigma_trial := fun i j => iso_stress d (top_E (pv_theta p)) epsilon_inc i j + pv_sigma p i j in
  fst (radial_return d (top_sig0 (pv_theta p)) sigma_trial).
Definition pv_zero : pvars := mkPv (fun _ _ => 0) (fun _ _ => 0) (1, 1).
Definition top_tensor_map (d : nat) (vars : list pvars) (u_grad : mat) : mat := top_return_map d (nth 0 vars pv_zero) u_grad.
Section TopPlastic.
Variable F : fem pvars.
Definition top_params : Type := nat -> nat -> pvars.
(** update_stress_strain, 80-88 *)
Definition top_update (sol : nodal) (p : top_params) : top_params := fun c q =>
  mkPv (top_return_map (dim F) (p c q) (sol_to_grad F sol c q)) (strain (sol_to_grad F sol c q)) (pv_theta (p c q)).
(** set_params, 90-91, as internal variables of FemModel *)
Definition top_vars (p : top_params) : internal_vars pvars := mkIv [] [map p (seq 0 (num_cells F))] None (fun _ => []).
(** init_params, 93-101 (flex_inds are all the cells, 24; a design of another length raises ValueError) *)
Definition top_init (theta : list (R * R)) : res top_params :=
  bind (set_params (1, 1) (num_cells F) (seq 0 (num_cells F)) theta) (fun full =>
  Ok (fun c _ => mkPv (fun _ _ => 0) (fun _ _ => 0) (nth c full (1, 1)))).
(** the attributes of the problem object that the driver changes *)
Record tobject : Type := mkTo { to_load : R; to_params : top_params }.
(** get_neumann_val, 135-138 *)
Definition neumann_val (load : R) (x : point) (k : nat) : R := match k with 1%nat => - load | _ => 0 end.
(** problem.neumann_value_fns = [get_neumann_val(load)], 140 and 154: the object with that traction *)
Definition loaded (load : R) : fem pvars :=
  mkFem (f_ele F) (num_total_nodes F) (points F) (cells F) (vec F) (tensor_map F) (mass_map F) (body_map F) (source_info F)
    (Some [fun x _ => neumann_val load x]) (cauchy_bc_info F).
Definition max_load : R := 4 * 10 ^ 2.
(** rs, 133 *)
Definition rs : list R := linspace (2 / 10) 1 5.
(** fwd_pred, ad_wrapper: set_params(params), then solve with the stored traction *)
Variable solve : R -> top_params -> nodal.
Definition fwd_pred (o : tobject) (p : top_params) : nodal * tobject := (solve (to_load o) p, mkTo (to_load o) p).
(** the loop of fwd_pred_seq, 148-157; the state: last solution, params, problem object *)
Definition load_step (s : nodal * top_params * tobject) (r : R) : nodal * top_params * tobject :=
  let '(_, p, o) := s in
  let o := mkTo (r * max_load) (to_params o) in
  let '(sol, o) := fwd_pred o p in
  (sol, top_update sol p, o).
Definition fwd_pred_seq (o : tobject) (theta : list (R * R)) : res (nodal * top_params * tobject) :=
  bind (top_init theta) (fun p => Ok (fold_left load_step rs (fun _ _ => 0, p, o))).
(** J_total, 160-163 *)
Definition J_total (sel : list (nat * nat)) (o : tobject) (theta : list (R * R)) : res R :=
  bind (fwd_pred_seq o theta) (fun '(sol, _, _) => Ok (compute_compliance F sel (neumann_val max_load) sol)).
(** inspect, 103-107: the stresses in internal_vars, the mean over the quadrature points of the norm *)
Definition inspect (o : tobject) (c : nat) : R :=
  sumN (num_quads (f_ele F)) (fun q => sqrt (ddot (dim F) (pv_sigma (to_params o c q)) (pv_sigma (to_params o c q)))) / INR (num_quads (f_ele F)).
End TopPlastic.
(** computeGlobalVolumeConstraint, 200-205 *)
Definition plastic_constraints (rho : list (R * R)) : list R :=
  [sumR rho fst / INR (length rho) / (50 / 100) - 1; sumR rho snd / INR (length rho) / (25 / 100) - 1].
Definition plastic_rho_ini (num_flex : nat) : list (R * R) := repeat (50 / 100, 25 / 100) num_flex.
Close Scope R_scope.
