(** * Model of jax_am/fem/models.py and of the material classes of three demos. Definitions only.
    A tensor is a function of two indices; np.eye(self.dim) has the size of the tensors it is added
    to, so a displacement gradient must be square (vec = dim). *)
From Coq Require Import String.
From Verif Require Import Prelude FemModel.
Open Scope list_scope.
Open Scope R_scope.

(** np.trace, np.eye, np.sum(a*b) *)
Definition trace (d : nat) (M : mat) : R := sumN d (fun i => M i i).
Definition eye : mat := fun i j => if Nat.eqb i j then 1 else 0.
Definition ddot (d : nat) (A B : mat) : R := sumN d (fun i => sumN d (fun j => A i j * B i j)).
(** A @ B, A.T *)
Definition matmul (d : nat) (A B : mat) : mat := fun i j => sumN d (fun k => A i k * B k j).
Definition transpose (A : mat) : mat := fun i j => A j i.

(** strain, models.py:157-159 *)
Definition strain (u_grad : mat) : mat := fun i j => / 2 * (u_grad i j + u_grad j i).
(** stress, models.py:161-167 with E = 70e3; with E an argument in
    demos/fem/thermal_mechanical/example.py:83-88 and applications/fem/top_opt/plasticity.py:43-48 *)
Definition nu : R := 3 / 10.
Definition mu_of (E : R) : R := E / (2 * (1 + nu)).
Definition lmbda_of (E : R) : R := E * nu / ((1 + nu) * (1 - 2 * nu)).
Definition iso_stress (d : nat) (E : R) (epsilon : mat) : mat :=
  fun i j => lmbda_of E * trace d epsilon * eye i j + 2 * mu_of E * epsilon i j.

(** LinearElasticity.get_tensor_map, models.py:104-114 *)
Definition linear_elastic_stress (d : nat) (u_grad : mat) : mat :=
  let E := 70000 in
  let mu := E / (2 * (1 + 3 / 10)) in
  let lmbda := E * (3 / 10) / ((1 + 3 / 10) * (1 - 2 * (3 / 10))) in
  let epsilon := fun i j => / 2 * (u_grad i j + u_grad j i) in
  fun i j => lmbda * trace d epsilon * eye i j + 2 * mu * epsilon i j.

(** ** HyperElasticity, models.py:117-136. J ** (-2/3) is a real number for J > 0 only (nan or inf
    otherwise); [Rpower] agrees with it there. *)
Definition psi_mod (d : nat) (mu kappa : R) (F : mat) : R :=
  let J := det d F in
  let Jinv := Rpower J (- 2 / 3) in
  let I1 := trace d (matmul d (transpose F) F) in
  mu / 2 * (Jinv * I1 - 3) + kappa / 2 * (J - 1) ^ 2.
Definition psi (d : nat) (F : mat) : R :=
  let E := 1000 in
  psi_mod d (E / (2 * (1 + 3 / 10))) (E / (3 * (1 - 2 * (3 / 10)))) F.
(** jax.grad(psi) is the argument [P_fn] *)
Definition first_PK_stress (P_fn : mat -> mat) (u_grad : mat) : mat :=
  P_fn (fun i j => u_grad i j + eye i j).
(** applications/fem/buckling/cellular_solid.py:16-29: the 2x2 gradient completed with a unit
    out-of-plane stretch, then the 3-D energy with E = 70e3 *)
Definition embed (F2 : mat) : mat := fun i j =>
  match i, j with
  | 0%nat, 0%nat => F2 0%nat 0%nat | 0%nat, 1%nat => F2 0%nat 1%nat
  | 1%nat, 0%nat => F2 1%nat 0%nat | 1%nat, 1%nat => F2 1%nat 1%nat
  | 2%nat, 2%nat => 1 | _, _ => 0
  end.
Definition psi_2d (F2 : mat) : R :=
  let E := 70000 in
  psi_mod 3 (E / (2 * (1 + 3 / 10))) (E / (3 * (1 - 2 * (3 / 10)))) (embed F2).

(** ** Plasticity, models.py:139-205 *)
Definition safe_sqrt (x : R) : R := if Rltb 0 x then sqrt x else 0.                 (* 150-152 *)
Definition safe_divide (x y : R) : R := if Reqb y 0 then 0 else x / y.              (* 154-155 *)
(** lines 174-178, applied to sigma_trial; the same lines in the other two return maps. The second
    component is f_yield_plus. *)
Definition radial_return (d : nat) (sig0 : R) (sigma_trial : mat) : mat * R :=
  let s_dev := fun i j => sigma_trial i j - 1 / INR d * trace d sigma_trial * eye i j in
  let s_norm := safe_sqrt (3 / 2 * ddot d s_dev s_dev) in
  let f_yield := s_norm - sig0 in
  let f_yield_plus := if Rltb 0 f_yield then f_yield else 0 in
  (fun i j => sigma_trial i j - safe_divide (f_yield_plus * s_dev i j) s_norm, f_yield_plus).
(** stress_return_map, models.py:169-179 *)
Definition stress_return_map (d : nat) (u_grad sigma_old epsilon_old : mat) : mat :=
  let sig0 := 250 in
  let epsilon_crt := strain u_grad in
  let epsilon_inc := fun i j => epsilon_crt i j - epsilon_old i j in
  let stress_inc := iso_stress d 70000 epsilon_inc in
  let sigma_trial := fun i j => stress_inc i j + sigma_old i j in
  fst (radial_return d sig0 sigma_trial).

(** the state kept between load steps (one tensor per cell and quadrature point) and custom_init,
    models.py:140-143 *)
Record plastic : Type := mkPlastic { sigmas_old : nat -> nat -> mat; epsilons_old : nat -> nat -> mat }.
Definition plastic_init : plastic := mkPlastic (fun _ _ _ _ => 0) (fun _ _ _ _ => 0).
Section Plastic.
Context {V : Type}.
Variable F : fem V.
(** update_stress_strain, models.py:189-196 *)
Definition update_stress_strain (sol : nodal) (s : plastic) : plastic :=
  let u_grads := sol_to_grad F sol in
  mkPlastic (fun c q => stress_return_map (dim F) (u_grads c q) (sigmas_old s c q) (epsilons_old s c q))
            (fun c q => strain (u_grads c q)).
(** compute_avg_stress, models.py:198-205 *)
Definition compute_avg_stress (s : plastic) : mat := fun i j =>
  let E := f_ele F in
  let sigma := sumN (num_cells F) (fun c => sumN (num_quads E) (fun q => sigmas_old s c q i j * JxW F c q)) in
  let vol := sumN (num_cells F) (fun c => sumN (num_quads E) (fun q => JxW F c q)) in
  sigma / vol.
End Plastic.
(** get_tensor_map, models.py:145-147, with the internal variables 'laplace' = [sigmas, epsilons] *)
Definition plastic_tensor_map (d : nat) (vars : list mat) (u_grad : mat) : mat :=
  match vars with [sigma_old; epsilon_old] => stress_return_map d u_grad sigma_old epsilon_old | _ => fun _ _ => 0 end.
Definition plastic_vars (n : nat) (s : plastic) : internal_vars mat :=
  mkIv [] [map (sigmas_old s) (seq 0 n); map (epsilons_old s) (seq 0 n)] None (fun _ => []).

(** ** LinearPoisson, models.py:8-37. [true_grad] is jax.jacrev(true_u_fn). *)
Definition poisson_map (u_grad : mat) : mat := u_grad.
Section Post.
Context {V : Type}.
Variable F : fem V.
Let E := f_ele F.
Definition compute_l2_norm_error (sol : nodal) (true_u : point -> nat -> R) : R :=
  let u c q i := sumN (num_nodes E) (fun a => cells_sol F sol c a i * shape_vals E q a) in
  sqrt (sumN (num_cells F) (fun c => sumN (num_quads E) (fun q => sumN (vec F) (fun i =>
    (u c q i - true_u (physical_quad_point F c q) i) ^ 2 * JxW F c q)))).
Definition compute_h1_norm_error (sol : nodal) (true_u : point -> nat -> R) (true_grad : point -> mat) : R :=
  let u c q i := sumN (num_nodes E) (fun a => cells_sol F sol c a i * shape_vals E q a) in
  let u_grads c q i d := sumN (num_nodes E) (fun a => cells_sol F sol c a i * shape_grads F c q a d) in
  let val_l2_error := sqrt (sumN (num_cells F) (fun c => sumN (num_quads E) (fun q => sumN (vec F) (fun i =>
    (u c q i - true_u (physical_quad_point F c q) i) ^ 2 * JxW F c q)))) in
  let grad_l2_error := sqrt (sumN (num_cells F) (fun c => sumN (num_quads E) (fun q => sumN (vec F) (fun i => sumN (dim F) (fun d =>
    (u_grads c q i d - true_grad (physical_quad_point F c q) i d) ^ 2 * JxW F c q))))) in
  val_l2_error + grad_l2_error.

(** ** Mechanics, models.py:40-101. [surface_fn] maps the array of gradients (selected face, face
    quadrature point) to an array of vectors. *)
Definition surface_integral (location_fn : point -> bool) (surface_fn : (nat -> nat -> mat) -> nat -> nat -> nat -> R) (sol : nodal) (k : nat) : R :=
  let sel := boundary_inds F location_fn in
  let face j := nth j sel (0, 0)%nat in
  let u_grads_face j p i d := sumN (num_nodes E) (fun a => cells_sol F sol (fst (face j)) a i * face_shape_grads F (face j) p a d) in
  let traction := surface_fn u_grads_face in
  sumN (length sel) (fun j => sumN (num_face_quads E) (fun p => traction j p k * nanson_scale F (face j) p)).
(** compute_traction: vmap of the tensor map called with the gradient only; the normal (0,0,1) is
    reshaped to (dim, 1), which raises TypeError unless dim = 3. Without a get_tensor_map:
    AttributeError. *)
Definition compute_traction (location_fn : point -> bool) (sol : nodal) : res (nat -> R) :=
  match tensor_map F with
  | None => Err AttributeError
  | Some stress =>
    if Nat.eqb (dim F) 3 then
      let normals := fun d => match d with 2%nat => 1 | _ => 0 end in
      let traction_fn u_grads j p k := sumN (dim F) (fun d => stress [] (u_grads j p) k d * normals d) in
      Ok (surface_integral location_fn traction_fn sol)
    else Err TypeError
  end.
Definition compute_surface_area (location_fn : point -> bool) (sol : nodal) : nat -> R :=
  surface_integral location_fn (fun _ _ _ _ => 1) sol.
End Post.

(** ** Demo demos/fem/thermal_mechanical/example.py, class Plasticity (50-150), constants 153-168 *)
Definition POWDER : nat := 0.
Definition LIQUID : nat := 1.
Definition SOLID : nat := 2.
Definition Tl : R := 1623.
(** stress_return_maps, lines 90-105: stress, (f_yield_plus, sigma[0, 0]) *)
Definition stress_return_maps (d : nat) (u_grad sigma_old epsilon_old : mat) (dT : R) (phase : nat) : mat * (R * R) :=
  let E0 := 70 * 10 ^ 9 in
  let sig0 := 250 * 10 ^ 6 in
  let alpha_V0 := / 10 ^ 5 in
  let alpha_V := if Nat.eqb phase SOLID then alpha_V0 else 0 in
  let E := if Nat.eqb phase SOLID then E0 else / 10 ^ 2 * E0 in
  let epsilon_inc_T := fun i j => alpha_V * dT * eye i j in
  let epsilon_crt := strain u_grad in
  let epsilon_inc := fun i j => epsilon_crt i j - epsilon_old i j in
  let stress_inc := iso_stress d E (fun i j => epsilon_inc i j - epsilon_inc_T i j) in
  let sigma_trial := fun i j => stress_inc i j + sigma_old i j in
  let sigma := radial_return d sig0 sigma_trial in
  (fst sigma, (snd sigma, fst sigma 0%nat 0%nat)).
(** sigmas, epsilons, dT, phase: the list params; custom_init, lines 55-63 *)
Record thermo : Type := mkThermo { t_sigmas : nat -> nat -> mat; t_epsilons : nat -> nat -> mat; t_dT : nat -> nat -> R; t_phase : nat -> nat -> nat }.
Definition thermo_init : thermo := mkThermo (fun _ _ _ _ => 0) (fun _ _ _ _ => 0) (fun _ _ => 0) (fun _ _ => POWDER).
Section Thermo.
Context {V : Type}.
Variable F : fem V.
(** update_stress_strain, lines 119-132 *)
Definition thermo_update_stress_strain (sol : nodal) (s : thermo) : thermo * (nat -> nat -> R * R) :=
  let u_grads := sol_to_grad F sol in
  let maps c q := stress_return_maps (dim F) (u_grads c q) (t_sigmas s c q) (t_epsilons s c q) (t_dT s c q) (t_phase s c q) in
  (mkThermo (fun c q => fst (maps c q)) (fun c q => strain (u_grads c q)) (t_dT s) (t_phase s), fun c q => snd (maps c q)).
(** update_dT_and_phase, lines 134-145; both masks are computed before either is applied *)
Definition update_dT_and_phase (dT T : nodal) (s : thermo) : thermo :=
  let dT_quad c q := convert_from_dof_to_quad F dT c q 0%nat in
  let T_quad c q := convert_from_dof_to_quad F T c q 0%nat in
  let powder_to_liquid c q := Nat.eqb (t_phase s c q) POWDER && Rltb Tl (T_quad c q) in
  let liquid_to_solid c q := Nat.eqb (t_phase s c q) LIQUID && Rltb (T_quad c q) Tl in
  let phase1 c q := if powder_to_liquid c q then LIQUID else t_phase s c q in
  let phase2 c q := if liquid_to_solid c q then SOLID else phase1 c q in
  mkThermo (t_sigmas s) (t_epsilons s) dT_quad phase2.
(** the mechanical half of the time loop, lines 220-221, 254-267: for every retained temperature field,
    update dT and phase, solve (the displacement found is an input here), update stresses *)
Definition thermo_step (x : thermo * nodal) (Tu : nodal * nodal) : thermo * nodal :=
  let '(s, T_old) := x in let '(T_new, sol_u) := Tu in
  let s1 := update_dT_and_phase (fun n k => T_new n k - T_old n k) T_new s in
  (fst (thermo_update_stress_strain sol_u s1), T_new).
Definition thermo_run (T0 : nodal) (history : list (nodal * nodal)) : thermo * nodal :=
  fold_left thermo_step history (thermo_init, T0).
End Thermo.
(** class Thermal, lines 19-47: tensor map, mass map with T_old as its variable *)
Definition thermal_tensor_map (vars : list (nat -> R)) (u_grad : mat) : mat := fun i d => 15 * u_grad i d.
Definition thermal_mass_map (dt : R) (vars : list (nat -> R)) (T : nat -> R) : nat -> R :=
  match vars with [T_old] => fun i => 8440 * 588 * (T i - T_old i) / dt | _ => fun _ => 0 end.
Definition T0 : R := 300.
(** thermal_neumann_walls, lines 202-207, and get_thermal_neumann_top, 190-200 *)
Definition neumann_walls (x : point) (vars : list (nat -> R)) : nat -> R := fun _ =>
  match vars with
  | [old_T] => 100 * (T0 - old_T 0%nat) + 567 / 10 ^ 10 * (3 / 10) * (T0 ^ 4 - old_T 0%nat ^ 4)
  | _ => 0
  end.
Definition neumann_top (laser_center : point) (switch : R) (x : point) (vars : list (nat -> R)) : nat -> R := fun _ =>
  match vars with
  | [old_T] =>
    let rb := 5 / 10 ^ 5 in
    let d2 := (x 0%nat - laser_center 0%nat) ^ 2 + (x 1%nat - laser_center 1%nat) ^ 2 in
    let q_laser := 2 * (25 / 100) * 50 / (PI * rb ^ 2) * exp (- 2 * d2 / rb ^ 2) * switch in
    let q_conv := 100 * (T0 - old_T 0%nat) in
    let q_rad := 567 / 10 ^ 10 * (3 / 10) * (T0 ^ 4 - old_T 0%nat ^ 4) in
    q_conv + q_rad + q_laser
  | _ => 0
  end.

(** ** Topology optimisation, applications/fem/top_opt/fem_model.py and
    demos/fem/topology_optimization/example.py (plane stress, lines 26-42, with Emax = 70e3) *)
Definition simp (Emin Emax theta penal : R) : R := Emin + (Emax - Emin) * Rpower theta penal.
(** get_tensor_map_plane_stress, fem_model.py:28-51; theta ** penal for theta > 0 *)
Definition plane_stress (Emax penal theta : R) (u_grad : mat) : mat :=
  let E := simp (/ 1000 * Emax) Emax theta penal in
  let epsilon := strain u_grad in
  let eps11 := epsilon 0%nat 0%nat in let eps22 := epsilon 1%nat 1%nat in let eps12 := epsilon 0%nat 1%nat in
  let sig11 := E / (1 + nu) / (1 - nu) * (eps11 + nu * eps22) in
  let sig22 := E / (1 + nu) / (1 - nu) * (nu * eps11 + eps22) in
  let sig12 := E / (1 + nu) * eps12 in
  fun i j => match i, j with
             | 0%nat, 0%nat => sig11 | 0%nat, 1%nat => sig12 | 1%nat, 0%nat => sig12 | 1%nat, 1%nat => sig22 | _, _ => 0
             end.
(** freecad 53-66, box 68-80 *)
Definition simp_stress (d : nat) (Emin Emax theta : R) (u_grad : mat) : mat :=
  iso_stress d (simp Emin Emax theta 3) (strain u_grad).
(** multi_material, 82-100 *)
Definition multi_material_E (theta1 theta2 : R) : R :=
  let Emax := 70000 in let Emin := 70 in
  let E1 := Emax in let E2 := 2 / 10 * Emax in
  Emin + Rpower theta1 3 * (Rpower theta2 3 * E1 + (1 - Rpower theta2 3) * E2).
(** set_params, 102-107: ones, the flexible cells overwritten, one copy per quadrature point.
    Out-of-range cells are dropped (JAX). *)
Fixpoint set_rows {X : Type} (l : list X) (upd : list (nat * X)) : list X :=
  match upd with [] => l | (i, x) :: r => set_rows (if Nat.ltb i (length l) then firstn i l ++ x :: skipn (S i) l else l) r end.
Definition set_params {X : Type} (one : X) (num_cells : nat) (flex_inds : list nat) (params : list X) : res (list X) :=
  if Nat.eqb (length flex_inds) (length params) then Ok (set_rows (repeat one num_cells) (combine flex_inds params))
  else Err ValueError.
(** compute_compliance, 109-119 *)
Definition compute_compliance {V : Type} (F : fem V) (sel : list (nat * nat)) (neumann_fn : point -> nat -> R) (sol : nodal) : R :=
  let E := f_ele F in
  let u_face s p i := sumN (num_nodes E) (fun a => sol (cell_node F (fst s) a) i * face_shape_vals E (snd s) p a) in
  sumR sel (fun s => sumN (num_face_quads E) (fun p => sumN (vec F) (fun i =>
    neumann_fn (surface_quad_point F s p) i * u_face s p i * nanson_scale F s p))).
(** vm_stress_fn_helper, 133-137 (dim = 3 always) *)
Definition vm_stress (sigma : mat) : R :=
  let s_dev := fun i j => sigma i j - 1 / 3 * trace 3 sigma * eye i j in
  sqrt (3 / 2 * ddot 3 s_dev s_dev).

(** custom_init, 9-26: the stress law chosen by case_flag, and its exponent *)
Inductive case_law : Type := Freecad | Box | Multi | PlaneStress (penal : R).
Definition case_init (case_flag : string) : res case_law :=
  if String.eqb case_flag "freecad" then Ok Freecad
  else if String.eqb case_flag "box" then Ok Box
  else if String.eqb case_flag "multi_material" then Ok Multi
  else if String.eqb case_flag "plate" || String.eqb case_flag "L_shape" || String.eqb case_flag "eigen" then
    Ok (PlaneStress (if String.eqb case_flag "eigen" then 5 else 3))
  else Err ValueError.
(** the stress of that law; theta is the list of design variables of the cell (the index past its
    end raises IndexError; unpacking anything but two raises ValueError) *)
Definition case_stress (law : case_law) (d : nat) (theta : list R) (u_grad : mat) : res mat :=
  match law, theta with
  | Freecad, t :: _ => Ok (simp_stress d 70 (70 * 10 ^ 3) t u_grad)
  | Box, t :: _ => Ok (simp_stress d 70 (70 * 10 ^ 9) t u_grad)
  | PlaneStress penal, t :: _ => Ok (plane_stress (70 * 10 ^ 9) penal t u_grad)
  | Multi, [t1; t2] => Ok (iso_stress d (multi_material_E t1 t2) (strain u_grad))
  | Multi, _ => Err ValueError
  | _, [] => Err IndexError
  end.
(** the tensor map called with internal_vars['laplace'] = [theta] (errors: see case_stress) *)
Definition case_tensor_map (law : case_law) (d : nat) (vars : list (list R)) (u_grad : mat) : mat :=
  match vars with
  | [theta] => match case_stress law d theta u_grad with Ok s => s | Err _ => fun _ _ => 0 end
  | _ => fun _ _ => 0
  end.
(** get_von_mises_stress_fn, 121-149. The helper subtracts a 3 x 3 identity, so the other branch
    raises TypeError for tensors that are not 3 x 3 (plane stress is 2 x 2 whatever the dimension). *)
Definition pad_stress (s : mat) : mat := fun i j => match i, j with
  | 0%nat, 0%nat => s 0%nat 0%nat | 0%nat, 1%nat => s 0%nat 1%nat | 1%nat, 0%nat => s 1%nat 0%nat | 1%nat, 1%nat => s 1%nat 1%nat
  | _, _ => 0 end.
Definition vm_stress_fn (case_flag : string) (d : nat) (theta : list R) (u_grad : mat) : res R :=
  bind (case_init case_flag) (fun law =>
  if String.eqb case_flag "plate" || String.eqb case_flag "L_shape" then
    match theta with
    | t :: _ => Ok (vm_stress (pad_stress (iso_stress d (Rpower t (5 / 10) * (70 * 10 ^ 9)) (strain u_grad))))
    | [] => Err IndexError
    end
  else bind (case_stress law d theta u_grad) (fun sigma =>
    match law with
    | PlaneStress _ => Err TypeError
    | _ => if Nat.eqb d 3 then Ok (vm_stress sigma) else Err TypeError
    end)).
(** the average of line 159 in the cell c *)
Definition cell_average {V : Type} (F : fem V) (v : nat -> nat -> R) (c : nat) : R :=
  sumN (num_quads (f_ele F)) (fun q => v c q * JxW F c q) / sumN (num_quads (f_ele F)) (fun q => JxW F c q).

(** ** Demo demos/fem/phase_field_fracture/example.py *)
Definition safe_plus (x : R) : R := / 2 * (x + Rabs x).
Definition safe_minus (x : R) : R := / 2 * (x - Rabs x).
(** constants 163-168: E = 210, nu = 0.3, G_c = 2.7e-3, l = 0.02 *)
Definition fr_mu : R := 210 / (2 * (1 + nu)).
Definition fr_lmbda : R := 210 * nu / ((1 + nu) * (1 - 2 * nu)).
Definition G_c : R := 27 / 10 ^ 4.
Definition fr_l : R := 2 / 100.
(** psi_plus, psi_minus, 62-70; [eigen_vals] is the first result of np.linalg.eigh *)
Definition psi_plus (d : nat) (eigen_vals : mat -> list R) (epsilon : mat) : R :=
  fr_lmbda / 2 * safe_plus (trace d epsilon) ^ 2 + fr_mu * sumR (eigen_vals epsilon) (fun x => safe_plus x ^ 2).
Definition psi_minus (d : nat) (eigen_vals : mat -> list R) (epsilon : mat) : R :=
  fr_lmbda / 2 * safe_minus (trace d epsilon) ^ 2 + fr_mu * sumR (eigen_vals epsilon) (fun x => safe_minus x ^ 2).
(** g, 72-73 *)
Definition degrade (dm : nat -> R) : R := (1 - dm 0%nat) ^ 2 + / 1000.
(** PhaseField maps, 29-42 *)
Definition phase_tensor_map (d_grad : mat) : mat := fun i j => G_c * fr_l * d_grad i j.
Definition phase_mass_map (history : R) (dm : nat -> R) : nat -> R := fun i => G_c / fr_l * dm i - 2 * (1 - dm i) * history.
(** compute_history, 110-118 *)
Definition compute_history {V : Type} (F : fem V) (eigen_vals : mat -> list R) (sol_u : nodal) (history_old : nat -> nat -> R) : nat -> nat -> R :=
  fun c q => Rmax (psi_plus (dim F) eigen_vals (strain (sol_to_grad F sol_u c q))) (history_old c q).
(** one load step, lines 224-252, with the early stop of 249-250; the two solver results are inputs *)
Definition fracture_step {V : Type} (F : fem V) (eigen_vals : mat -> list R)
    (x : (nat -> nat -> R) * nodal) (ud : nodal * nodal) : (nat -> nat -> R) * nodal :=
  let '(history_old, sol_d_old) := x in let '(sol_u, sol_d) := ud in
  (compute_history F eigen_vals sol_u history_old, fun n k => Rmax (sol_d n k) (sol_d_old n k)).
(** disps[1:] in order *)
Definition fracture_run {V : Type} (F : fem V) (eigen_vals : mat -> list R) (x : (nat -> nat -> R) * nodal) (steps : list (nodal * nodal)) : (nat -> nat -> R) * nodal :=
  fold_left (fracture_step F eigen_vals) steps x.
(** the mass map called with internal_vars['mass'] = [history] (set_params, 43-47) *)
Definition phase_mass_of (vars : list R) : (nat -> R) -> nat -> R :=
  match vars with [history] => phase_mass_map history | _ => fun _ _ => 0 end.

(** ** demos/fem/phase_field_fracture/eigen.py. The rows of [V] are the eigenvectors after evecs.T,
    [l] the eigenvalues. *)
Section Eigen.
Variables (d : nat) (fn grad_fn : R -> R) (l : nat -> R) (V : mat).
Definition eigen_M (b i j : nat) : R := V b i * V b j.                                       (* 48 *)
Definition eigen_f (i j : nat) : R := sumN d (fun b => eigen_M b i j * fn (l b)).             (* 29-34 *)
(** f_jvp, 37-72 *)
Definition eigen_theta (a b : nat) : R :=
  if Reqb (l a - l b) 0 then grad_fn (l a) else (fn (l a) - fn (l b)) / (l a - l b).
Definition eigen_jvp (v : mat) (i j : nat) : R :=
  let term1 k m := sumN d (fun b => eigen_M b i j * eigen_M b k m * grad_fn (l b)) in
  let G a b k m := eigen_M a i k * eigen_M b j m + eigen_M a i m * eigen_M b j k in
  let tmp a b k m := G a b k m * eigen_theta a b in
  let tmp1 k m := sumN d (fun a => sumN d (fun b => tmp a b k m)) in
  let tmp2 k m := sumN d (fun a => tmp a a k m) in
  let term2 k m := / 2 * (tmp1 k m - tmp2 k m) in
  sumN d (fun k => sumN d (fun m => (term1 k m + term2 k m) * v k m)).
End Eigen.
Close Scope R_scope.
