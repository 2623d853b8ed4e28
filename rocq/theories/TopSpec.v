(** * Vocabulary for the statements about the topology optimisation drivers. *)
From Verif Require Import Prelude FemModel FemSpec MatModel MatSpec SolverModel TopModel.
Open Scope R_scope.

(** n stresses, none negative, one positive *)
Definition stresses (n : nat) (l : list R) : Prop := length l = n /\ (forall x, In x l -> 0 <= x) /\ exists x, In x l /\ 0 < x.
(** M is the largest entry *)
Definition largest (l : list R) (M : R) : Prop := In M l /\ forall x, In x l -> x <= M.
(** n to the power 1/12 *)
Definition root12 (n : nat) : R := Rpower (INR n) (/ 12).
(** the design rho with t added to entry j *)
Definition nudge (rho : list R) (j : nat) (t : R) : list R :=
  map (fun i => nth i rho 0 + if Nat.eqb i j then t else 0) (seq 0 (length rho)).
(** contract of jax.jacrev: entry i, j is the partial derivative of component i in direction j *)
Definition jacobian_of (jacrev : (list R -> list R) -> list R -> list (list R)) : Prop := forall f rho i j d,
  (i < length (f rho))%nat -> (j < length rho)%nat -> derivable_pt_lim (fun t => nth i (f (nudge rho j t)) 0) 0 d -> nth j (nth i (jacrev f rho) []) 0 = d.
(** the values returned by a call, the gradients returned by it *)
Definition values_after (vm : list R -> list R) jacrev (rhos : list (list R)) (rho : list R) : list R :=
  fst (fst (compute_constraints vm jacrev (constraint_calls vm jacrev rhos) rho)).
Definition gradients_after (vm : list R -> list R) jacrev (rhos : list (list R)) (rho : list R) : list (list R) :=
  snd (fst (compute_constraints vm jacrev (constraint_calls vm jacrev rhos) rho)).
(** the function whose value the call returns *)
Definition constraint_fn_after (vm : list R -> list R) jacrev (rhos : list (list R)) : list R -> list R := fun r => values_after vm jacrev rhos r.

(** a row changed in its first or second variable *)
Definition nudge1 (rho : list (R * R)) (j : nat) (t : R) : list (R * R) :=
  map (fun i => (fst (nth i rho (0, 0)) + (if Nat.eqb i j then t else 0), snd (nth i rho (0, 0)))) (seq 0 (length rho)).
Definition nudge2 (rho : list (R * R)) (j : nat) (t : R) : list (R * R) :=
  map (fun i => (fst (nth i rho (0, 0)), snd (nth i rho (0, 0)) + (if Nat.eqb i j then t else 0))) (seq 0 (length rho)).
Definition unit_rows (rho : list (R * R)) : Prop := forall r, In r rho -> 0 <= fst r <= 1 /\ 0 <= snd r <= 1.
(** ** eigen.py *)
(** two-dimensional problems on the same mesh with no boundary conditions *)
Definition free_problem (F : fem (list R)) : Prop :=
  wf_mesh F /\ (0 < num_cells F)%nat /\ vec F = 2%nat /\ dim F = 2%nat
  /\ source_info F = None /\ cauchy_bc_info F = None /\ neumann_bc_info F = None.
Definition stiffness_problem (F : fem (list R)) : Prop := free_problem F /\ tensor_map F = Some stiffness_map /\ mass_map F = None.
Definition mass_problem (F : fem (list R)) : Prop := free_problem F /\ tensor_map F = None /\ mass_map F = Some mass_density_map.
(** Young's modulus and density of a cell with the design variable t *)
Definition modulus_of (t : R) : R := 7 * 10 ^ 7 + (7 * 10 ^ 10 - 7 * 10 ^ 7) * Rpower t 5.
Definition density_of (t : R) : R := 2700 * t.
(** plane stress for Young's modulus one and Poisson's ratio 0.3 *)
Definition unit_stress (G : mat) : mat := fun i j =>
  1 / (1 + 3 / 10) * (/ 2 * (G i j + G j i)) + (3 / 10) / (1 - (3 / 10) ^ 2) * (G 0%nat 0%nat + G 1%nat 1%nat) * (if Nat.eqb i j then 1 else 0).
(** strain energy of a cell (unit modulus) and L2 product over a cell, as bilinear forms *)
Definition cell_k (F : fem (list R)) (c : nat) (u v : nodal) : R :=
  sumN (num_quads (f_ele F)) (fun q => JxW F c q * ddot 2 (unit_stress (sol_to_grad F u c q)) (sol_to_grad F v c q)).
Definition cell_m (F : fem (list R)) (c : nat) (u v : nodal) : R :=
  sumN (num_quads (f_ele F)) (fun q => JxW F c q * sumN 2 (fun k => at_quad F u c q k * at_quad F v c q k)).
Definition k_form (F : fem (list R)) (theta : nat -> R) (u v : nodal) : R := sumN (num_cells F) (fun c => modulus_of (theta c) * cell_k F c u v).
Definition m_form (F : fem (list R)) (theta : nat -> R) (u v : nodal) : R := sumN (num_cells F) (fun c => density_of (theta c) * cell_m F c u v).
(** K v = lambda M v, with the forces the two problems return; v has a mass *)
Definition eigenpair (FK FM : fem (list R)) (theta : nat -> R) (lambda : R) (v : nodal) : Prop :=
  exists rK rM, compute_residual_vars FK [] v (stiffness_vars (num_cells FK) theta) = Ok rK
  /\ compute_residual_vars FM [] v (mass_vars (num_cells FM) theta) = Ok rM
  /\ (forall n k, (n < num_total_nodes FK)%nat -> (k < 2)%nat -> rK n k = lambda * rM n k)
  /\ vAv FM (mass_vars (num_cells FM) theta) v <> Ok 0.
(** the design with t added in the cell c; contract of jax.grad for functions of a design *)
Definition shift (theta : nat -> R) (c : nat) (t : R) : nat -> R := fun i => if Nat.eqb i c then theta i + t else theta i.
Definition gradient_of (grad : ((nat -> R) -> R) -> (nat -> R) -> nat -> R) : Prop := forall f theta c d,
  derivable_pt_lim (fun t => f (shift theta c t)) 0 d -> grad f theta c = d.
(** the same for functions of a list *)
Definition list_gradient_of (g : (list R -> R) -> list R -> list R) : Prop := forall f l j d,
  (j < length l)%nat -> derivable_pt_lim (fun t => f (nudge l j t)) 0 d -> nth j (g f l) 0 = d.
(** eigenpairs that vary differentiably with t: lambda' at 0 is dl *)
Record branch (FK FM : fem (list R)) (theta : R -> nat -> R) (lambda : R -> R) (v : R -> nodal) (dl : R) : Prop := mkBranch {
  br_pair : exists e, 0 < e /\ forall t, Rabs t < e -> eigenpair FK FM (theta t) (lambda t) (v t);
  br_value : derivable_pt_lim lambda 0 dl;
  br_vector : exists dv : nodal, forall n k, derivable_pt_lim (fun t => v t n k) 0 (dv n k) }.
(** eigenvalues in the order of a shift-and-invert solver with target 10: nearest first *)
Definition by_distance (l : list R) : Prop := forall i j, (i <= j < length l)%nat -> Rabs (nth i l 0 - 10) <= Rabs (nth j l 0 - 10).

(** ** Plasticity *)
(** a solid of the class Plasticity with a loaded surface *)
Definition top_problem (F : fem pvars) (sel : list (nat * nat)) : Prop :=
  wf_mesh F /\ (0 < num_cells F)%nat /\ vec F = dim F /\ tensor_map F = Some (top_tensor_map (dim F)) /\ mass_map F = None
  /\ source_info F = None /\ cauchy_bc_info F = None /\ faces_ok F sel.
(** the displacement u is in equilibrium with the traction: the residual vanishes at the free unknowns, u at the fixed ones *)
Definition equilibrium (F : fem pvars) (sel : list (nat * nat)) (fixed : nat -> nat -> bool) (load : R) (p : top_params) (u : nodal) : Prop :=
  forall r, compute_residual_vars (loaded F load) [sel] u (top_vars F p) = Ok r -> balanced F fixed r u.
(** v is zero where the displacement is prescribed *)
Definition admissible (F : fem pvars) (fixed : nat -> nat -> bool) (v : nodal) : Prop :=
  forall n k, (n < num_total_nodes F)%nat -> (k < vec F)%nat -> fixed n k = true -> v n k = 0.
(** the work of a stress field on a displacement *)
Definition stress_work (F : fem pvars) (p : top_params) (v : nodal) : R :=
  sumN (num_cells F) (fun c => sumN (num_quads (f_ele F)) (fun q => JxW F c q * ddot (dim F) (pv_sigma (p c q)) (sol_to_grad F v c q))).
(** the mean of the norms of the stress in a cell *)
Definition mean_norm (F : fem pvars) (p : top_params) (c : nat) : R :=
  sumN (num_quads (f_ele F)) (fun q => sqrt (ddot (dim F) (pv_sigma (p c q)) (pv_sigma (p c q)))) / INR (num_quads (f_ele F)).
(** a sequence of load steps: histories and displacements *)
Definition load_steps (F : fem pvars) (solve : R -> top_params -> nodal) (n : nat) (load : nat -> R) (ps : nat -> top_params) (us : nat -> nodal) : Prop :=
  forall i, (i < n)%nat -> us i = solve (load i) (ps i) /\ forall c q,
    pv_sigma (ps (S i) c q) = top_return_map (dim F) (ps i c q) (sol_to_grad F (us i) c q)
    /\ pv_epsilon (ps (S i) c q) = strain (sol_to_grad F (us i) c q) /\ pv_theta (ps (S i) c q) = pv_theta (ps i c q).
(** contract of jax.vjp used for the load: a constant added to a function does not change its derivative *)
Definition ignores_constants (vjp : (vector -> vector) -> vector -> vector -> vector) : Prop :=
  forall f g k x w, (forall y i, g y i = f y i + k i) -> forall j, vjp g x w j = vjp f x w j.
Close Scope R_scope.
