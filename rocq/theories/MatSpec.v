(** * Vocabulary for the statements about the material models. *)
From Verif Require Import Prelude FemModel FemFacts FemSpec MatModel.
Open Scope R_scope.

(** equality of d x d tensors *)
Definition meq (d : nat) (A B : mat) : Prop := forall i j, (i < d)%nat -> (j < d)%nat -> A i j = B i j.
Definition msym (d : nat) (A : mat) : Prop := forall i j, (i < d)%nat -> (j < d)%nat -> A i j = A j i.
Definition mskew (d : nat) (A : mat) : Prop := forall i j, (i < d)%nat -> (j < d)%nat -> A i j = - A j i.
Definition madd (A B : mat) : mat := fun i j => A i j + B i j.
Definition msub (A B : mat) : mat := fun i j => A i j - B i j.
Definition mscal (c : R) (A : mat) : mat := fun i j => c * A i j.
Definition mzero : mat := fun _ _ => 0.
Definition identity : mat := fun i j => if Nat.eqb i j then 1 else 0.
(** Q Q^T = Q^T Q = I *)
Definition orthogonal (d : nat) (Q : mat) : Prop :=
  meq d (matmul d Q (transpose Q)) identity /\ meq d (matmul d (transpose Q) Q) identity.
Definition rotation (d : nat) (Q : mat) : Prop := orthogonal d Q /\ det d Q = 1.

(** deviator, mean stress, von Mises stress *)
Definition pressure (d : nat) (A : mat) : R := sumN d (fun i => A i i) / INR d.
Definition dev (d : nat) (A : mat) : mat := fun i j => A i j - pressure d A * identity i j.
Definition von_mises (d : nat) (A : mat) : R := sqrt (3 / 2 * ddot d (dev d A) (dev d A)).

(** contract of jax.grad for a function of a tensor: partial derivatives *)
Definition bump (F : mat) (i j : nat) (t : R) : mat := fun k l => if Nat.eqb k i && Nat.eqb l j then F k l + t else F k l.
Definition is_grad (d : nat) (f : mat -> R) (dom : mat -> Prop) (g : mat -> mat) : Prop :=
  forall F i j, dom F -> (i < d)%nat -> (j < d)%nat -> derivable_pt_lim (fun t => f (bump F i j t)) 0 (g F i j).

(** ** Plasticity histories *)
Section Hist.
Context {V : Type}.
Variable F : fem V.
(** the state after the displacement fields of the list, one update per field *)
Definition plastic_run (sols : list nodal) : plastic :=
  fold_left (fun s sol => update_stress_strain F sol s) sols plastic_init.
Definition positive_weights : Prop := forall c q, (c < num_cells F)%nat -> (q < num_quads (f_ele F))%nat -> 0 < JxW F c q.
Definition volume : R := sumN (num_cells F) (fun c => sumN (num_quads (f_ele F)) (fun q => JxW F c q)).
(** the power of the nodal forces r on the nodal field v *)
Definition power (r v : nodal) : R := sumN (num_total_nodes F) (fun n => sumN (vec F) (fun k => v n k * r n k)).
(** an infinitesimal rigid motion *)
Definition rigid_motion (b : nat -> R) (W : mat) : nodal := affine_field F b W.
(** unit outward normal at a face quadrature point (Nanson's formula) *)
Definition normal_dir (s : nat * nat) (p j : nat) : R :=
  sumN (dim F) (fun i => face_normals (f_ele F) (snd s) i * inv (dim F) (face_jacobian F s p) i j).
Definition unit_normal (s : nat * nat) (p j : nat) : R :=
  normal_dir s p j / sqrt (sumN (dim F) (fun i => normal_dir s p i ^ 2)).
(** displacement gradient at a face quadrature point *)
Definition face_grad (sol : nodal) (s : nat * nat) (p : nat) : mat :=
  fun i d => sumN (num_nodes (f_ele F)) (fun a => sol (cell_node F (fst s) a) i * face_shape_grads F s p a d).
(** force through the faces selected by loc: integral of sigma n *)
Definition surface_force (stress : mat -> mat) (loc : point -> bool) (sol : nodal) (k : nat) : R :=
  sumR (boundary_inds F loc) (fun s => sumN (num_face_quads (f_ele F)) (fun p =>
    sumN (dim F) (fun d => stress (face_grad sol s p) k d * unit_normal s p d) * nanson_scale F s p)).
Definition area (loc : point -> bool) : R :=
  sumR (boundary_inds F loc) (fun s => sumN (num_face_quads (f_ele F)) (fun p => nanson_scale F s p)).
Definition face_grads_sum_zero : Prop :=
  forall f p j, (f < length (face_inds (f_ele F)))%nat -> (p < num_face_quads (f_ele F))%nat -> (j < e_dim (f_ele F))%nat ->
  sumN (num_nodes (f_ele F)) (fun a => face_shape_grads_ref (f_ele F) f p a j) = 0.
(** squared L2 norms with the quadrature rule *)
Definition l2_sq (f : nat -> nat -> nat -> R) : R :=
  sumN (num_cells F) (fun c => sumN (num_quads (f_ele F)) (fun q => sumN (vec F) (fun i => f c q i ^ 2 * JxW F c q))).
Definition h1_sq (f : nat -> nat -> nat -> nat -> R) : R :=
  sumN (num_cells F) (fun c => sumN (num_quads (f_ele F)) (fun q => sumN (vec F) (fun i => sumN (dim F) (fun d => f c q i d ^ 2 * JxW F c q)))).
(** the temperatures met at a quadrature point *)
Definition temps (history : list (nodal * nodal)) (c q : nat) : list R := map (fun Tu => at_quad F (fst Tu) c q 0%nat) history.
(** nodal forces r vanish at the free degrees of freedom, u at the fixed ones *)
Definition balanced (fixed : nat -> nat -> bool) (r u : nodal) : Prop := forall n k, (n < num_total_nodes F)%nat -> (k < vec F)%nat ->
  if fixed n k then u n k = 0 else r n k = 0.
End Hist.
(** above the liquidus at some time; and strictly later below it *)
Definition was_molten (l : list R) : Prop := exists x, In x l /\ 1623 < x.
Definition has_solidified (l : list R) : Prop := exists i j x y, (i < j)%nat /\ nth_error l i = Some x /\ nth_error l j = Some y /\ 1623 < x /\ y < 1623.
(** contract of np.linalg.eigh: orthonormal rows V, x = sum of the l_b v_b v_b^T *)
Definition eigen_of (d : nat) (x : mat) (l : nat -> R) (V : mat) : Prop :=
  orthogonal d V /\ forall i j, (i < d)%nat -> (j < d)%nat -> x i j = sumN d (fun b => l b * (V b i * V b j)).
(** polynomials, of a number and of a square tensor, by Horner's rule; formal derivative *)
Fixpoint peval (p : list R) (x : R) : R := match p with [] => 0 | c :: p => c + x * peval p x end.
Fixpoint pderiv (p : list R) (x : R) : R := match p with [] => 0 | _ :: p => peval p x + x * pderiv p x end.
Fixpoint mat_poly (d : nat) (p : list R) (x : mat) : mat :=
  match p with [] => mzero | c :: p => fun i j => c * identity i j + matmul d x (mat_poly d p x) i j end.
(** ** Problems *)
(** trial stress: old stress plus the elastic increment (E = 70000, nu = 0.3) *)
Definition trial_stress (d : nat) (u_grad sigma_old epsilon_old : mat) : mat := fun i j =>
  let D := fun i j => / 2 * (u_grad i j + u_grad j i) - epsilon_old i j in
  sigma_old i j + 70000 * (3 / 10) / ((1 + 3 / 10) * (1 - 2 * (3 / 10))) * sumN d (fun k => D k k) * identity i j
  + 2 * (70000 / (2 * (1 + 3 / 10))) * D i j.
Definition elastic_problem {V : Type} (F : fem V) (iv : internal_vars V) (inds : list (list (nat * nat))) : Prop :=
  wf_mesh F /\ (0 < num_cells F)%nat /\ vec F = dim F /\ tensor_map F = Some (fun _ => linear_elastic_stress (dim F))
  /\ iv_sized F iv /\ only_internal F iv /\ Forall (faces_ok F) inds.
Definition plastic_problem (F : fem mat) (inds : list (list (nat * nat))) : Prop :=
  wf_mesh F /\ (0 < num_cells F)%nat /\ vec F = dim F /\ tensor_map F = Some (plastic_tensor_map (dim F))
  /\ mass_map F = None /\ neumann_ok F inds /\ Forall (faces_ok F) inds.
(** tables and mesh for which constant fields have zero gradient *)
Definition fem_tables {V : Type} (F : fem V) : Prop :=
  small_dim (dim F) /\ grads_sum_zero F /\ vals_sum_one F /\ face_vals_sum_one F /\ invertible_cells F.
Definition heat_problem (F : fem (nat -> R)) (dt : R) (inds : list (list (nat * nat))) : Prop :=
  wf_mesh F /\ (0 < num_cells F)%nat /\ vec F = 1%nat /\ tensor_map F = Some thermal_tensor_map /\ mass_map F = Some (thermal_mass_map dt)
  /\ source_info F = None /\ cauchy_bc_info F = None /\ neumann_ok F inds /\ Forall (faces_ok F) inds.
Definition damage_problem (F : fem R) (inds : list (list (nat * nat))) : Prop :=
  wf_mesh F /\ (0 < num_cells F)%nat /\ vec F = 1%nat /\ tensor_map F = Some (fun _ => phase_tensor_map) /\ mass_map F = Some phase_mass_of
  /\ cauchy_bc_info F = None /\ neumann_ok F inds /\ Forall (faces_ok F) inds.
(** a topology optimisation problem with one loaded surface; the design variables of each cell *)
Definition topopt_problem (F : fem (list R)) (law : case_law) (sel : list (nat * nat)) (load : point -> nat -> R) : Prop :=
  wf_mesh F /\ (0 < num_cells F)%nat /\ vec F = dim F /\ tensor_map F = Some (case_tensor_map law (dim F))
  /\ mass_map F = None /\ source_info F = None /\ cauchy_bc_info F = None /\ neumann_bc_info F = Some [fun x _ => load x] /\ faces_ok F sel
  /\ match law with PlaneStress penal => dim F = 2%nat /\ 0 < penal | _ => True end.
Definition design_vars (n : nat) (theta : nat -> list R) : internal_vars (list R) := mkIv [] [map (fun c (_ : nat) => theta c) (seq 0 n)] None (fun _ => []).
Definition in_design (law : case_law) (theta : list R) : Prop :=
  length theta = match law with Multi => 2%nat | _ => 1%nat end /\ Forall (fun t => 0 < t <= 1) theta.
(** u balances the loads under the design theta, with the fixed degrees of freedom held at zero *)
Definition equilibrium (F : fem (list R)) (sel : list (nat * nat)) (theta : nat -> list R) (fixed : nat -> nat -> bool) (u : nodal) : Prop :=
  forall r, compute_residual_vars F [sel] u (design_vars (num_cells F) theta) = Ok r -> balanced F fixed r u.
Close Scope R_scope.
