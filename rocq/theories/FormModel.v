(** * Model of applications/fem/forming (example_disp.py, example_force.py, single.py). Definitions only.
    The three files hold the same class Plasticity (single.py:20-133); line numbers are those of
    single.py unless another file is named. self.dim is 3. A division by zero, the inverse of a singular
    matrix and a fractional power of a negative number give inf or nan in the code and an unspecified
    number here. jax.lax.cond evaluates one branch. *)
From Verif Require Import Prelude FemModel MatModel.
Open Scope R_scope.

(** get_maps, 30-33 *)
Definition bulk_K : R := 164 * 1000.
Definition shear_G : R := 80 * 1000.
Definition H1 : R := 18.
Definition sig0 : R := 400.
(** the old values at a quadrature point, custom_init, 21-25 *)
Record fstate : Type := mkFs { F_old : mat; be_bar_old : mat; alpha_old : R }.
Definition fstate_init : fstate := mkFs eye eye 0.
(** np.linalg.norm of a matrix *)
Definition fro (A : mat) : R := sqrt (ddot 3 A A).
Definition grad_to_F (u_grad : mat) : mat := fun i j => u_grad i j + eye i j.
(** deviatoric, 59-60, and get_tau, 54-57 *)
Definition deviatoric (A : mat) : mat := fun i j => A i j - 1 / INR 3 * trace 3 A * eye i j.
Definition get_tau (F be_bar : mat) : mat := fun i j =>
  / 2 * bulk_K * (det 3 F ^ 2 - 1) * eye i j + shear_G * deviatoric be_bar i j.
(** return_map, 62-91. f_bar (line 67) and F_inv (line 64) are computed and never used. *)
Section Point.
Variable s : fstate.
Definition be_bar_trial (u_grad : mat) : mat :=
  let f := matmul 3 (grad_to_F u_grad) (inv 3 (F_old s)) in matmul 3 (matmul 3 f (be_bar_old s)) (transpose f).
Definition s_trial (u_grad : mat) : mat := fun i j => shear_G * deviatoric (be_bar_trial u_grad) i j.
Definition yield_f_trial (u_grad : mat) : R := fro (s_trial u_grad) - sqrt (2 / 3) * (sig0 + H1 * alpha_old s).
(** elastic_loading, 72-76 *)
Definition elastic_loading (u_grad : mat) : mat * R * mat :=
  (be_bar_trial u_grad, alpha_old s, get_tau (grad_to_F u_grad) (be_bar_trial u_grad)).
(** plastic_loading, 78-87 *)
Definition plastic_loading (u_grad : mat) : mat * R * mat :=
  let Ie_bar := 1 / 3 * trace 3 (be_bar_trial u_grad) in
  let G_bar := Ie_bar * shear_G in
  let Delta_gamma := yield_f_trial u_grad / (2 * G_bar) / (1 + H1 / (3 * G_bar)) in
  let direction := fun i j => s_trial u_grad i j / fro (s_trial u_grad) in
  let s_new := fun i j => s_trial u_grad i j - 2 * G_bar * Delta_gamma * direction i j in
  let alpha := alpha_old s + sqrt (2 / 3) * Delta_gamma in
  let be_bar := fun i j => s_new i j / shear_G + Ie_bar * eye i j in
  (be_bar, alpha, get_tau (grad_to_F u_grad) be_bar).
Definition return_map (u_grad : mat) : mat * R * mat :=
  if Rltb (yield_f_trial u_grad) 0 then elastic_loading u_grad else plastic_loading u_grad.
(** first_PK_stress, 36-40 *)
Definition PK_stress (u_grad : mat) : mat :=
  let '(_, _, tau) := return_map u_grad in matmul 3 tau (transpose (inv 3 (grad_to_F u_grad))).
(** update_int_vars, 42-45 *)
Definition update_state (u_grad : mat) : fstate :=
  let '(be_bar, alpha, _) := return_map u_grad in mkFs (grad_to_F u_grad) be_bar alpha.
(** compute_cauchy_stress, 47-52 *)
Definition cauchy_of (u_grad : mat) : mat :=
  matmul 3 (fun i j => 1 / det 3 (grad_to_F u_grad) * PK_stress u_grad i j) (transpose (grad_to_F u_grad)).
End Point.
(** tensor_map, 93-95, as the map of internal variables used by FemModel *)
Definition form_tensor_map (vars : list fstate) (u_grad : mat) : mat := PK_stress (nth 0 vars fstate_init) u_grad.

(** ** The time loop, 169-181 *)
Section Loop.
Context {V : Type}.
Variable F : fem V.
Definition form_vars : Type := nat -> nat -> fstate.
Definition vars_init : form_vars := fun _ _ => fstate_init.
(** internal_vars['laplace'], set in custom_init, 25, and set_params, 125-129: the three arrays as one array of records *)
Definition form_internal (v : form_vars) : internal_vars fstate := mkIv [] [map v (seq 0 (num_cells F))] None (fun _ => []).
(** update_int_vars_gp, 107-114, and compute_stress, 116-123 *)
Definition update_int_vars_gp (sol : nodal) (v : form_vars) : form_vars := fun c q => update_state (v c q) (sol_to_grad F sol c q).
Definition compute_stress (sol : nodal) (v : form_vars) : nat -> nat -> mat := fun c q => cauchy_of (v c q) (sol_to_grad F sol c q).
(** one step: the solution is found with the old variables in place (set_params, 125-129), the stress of
    the output file uses the old variables (int_vars_copy) *)
Definition form_step (v : form_vars) (sol : nodal) : form_vars * (nat -> nat -> mat) :=
  (update_int_vars_gp sol v, compute_stress sol v).
Definition form_run (v : form_vars) (sols : list nodal) : form_vars := fold_left (fun v sol => fst (form_step v sol)) sols v.
End Loop.

(** ** Boundary values *)
(** np.linspace *)
Definition linspace (a b : R) (n : nat) : list R := map (fun i => a + INR i * ((b - a) / INR (n - 1))) (seq 0 n).
(** scales: single.py:160, example_disp.py:172, example_force.py:175 *)
Definition scales (top : R) (n : nat) : list R := map (Rmult top) (linspace 0 1 n ++ linspace 1 0 n).
(** get_dirichlet_top, example_disp.py:160-169 ([alpha] is never used) *)
Definition dirichlet_top (Lx Ly scale : R) (p : point) : R :=
  let x := p 0%nat in let y := p 1%nat in
  let sdf := Rmin (Rmin (Rmin (Rabs x) (Rabs (Lx - x))) (Rabs y)) (Rabs (Ly - y)) in
  let scaled_sdf := sdf / (/ 2 * Rmin Lx Ly) in
  let EPS := / 10 ^ 10 in
  - scale * Lx * (1 / (1 + (1 / (scaled_sdf + EPS) - 1))).
(** get_neumann_top, example_force.py:163-173 *)
Definition form_neumann_top (Lx Ly scale : R) (p : point) : nat -> R := fun k =>
  let x := p 0%nat in let y := p 1%nat in
  let xc := / 2 * Lx in let yc := / 2 * Ly in let lx := / 4 * Lx in let ly := / 4 * Ly in
  let traction_z := scale * exp (- ((x - xc) ^ 2 + (y - yc) ^ 2) / (lx ^ 2 + ly ^ 2)) in
  match k with 2%nat => - traction_z | _ => 0 end.
Close Scope R_scope.
