(** * Vocabulary for the inverse example. Definitions only. *)
From Coq Require Import String.
From Verif Require Import Prelude FemModel FemSpec FemMatProofs MatModel MatSpec RveModel RveSpec SolverModel SolverSpec WellSpec InvModel.
Open Scope R_scope.
Open Scope list_scope.

(** jax.vjp of a function from R^m to R^n: the transposed derivative *)
Definition transposes (n m : nat) (vjp : (vector -> vector) -> vector -> vector -> vector) : Prop :=
  forall f x D, linear_map n m D -> (forall d i, (i < n)%nat -> derivable_pt_lim (fun t => f (step x t d) i) 0 (D d i)) -> vjp_ok n m vjp f x D.
Section InvSpec.
Context {V : Type}.
Variable M : fem V.
Variable P_fn : R -> R -> mat -> mat.
Variable Lz : R.
(** a mesh of three-dimensional elements *)
Definition mesh_ok : Prop := wf_mesh M /\ dim M = 3%nat /\ (0 < num_cells M)%nat /\ grads_sum_zero M.
(** no cell is turned inside out at a quadrature point *)
Definition oriented (u : nodal) : Prop :=
  forall c q, (c < num_cells M)%nat -> (q < num_quads (f_ele M))%nat -> 0 < det 3 (fun i j => sol_to_grad M u c q i j + eye i j).
(** u takes the boundary values and has no residual elsewhere *)
Definition inv_solution (p : vector) (u : nodal) : Prop :=
  let '(locs, vecs, fns) := inv_dirichlet M Lz p in discrete_solution (inv_fem M P_fn p) locs vecs fns (inv_inds M Lz) (inv_vars M p) u.
Definition shift_z (t : R) (u : nodal) : nodal := fun n k => if Nat.eqb k 2 then u n k + t else u n k.
(** the Young's modulus E rho at every quadrature point is a times as large, and so are the loads *)
Definition scaled (a : R) (p p' : vector) : Prop :=
  (forall c q, (c < num_cells M)%nat -> (q < num_quads (f_ele M))%nat -> E_of p' * rho_of M p' c q = a * (E_of p * rho_of M p c q))
  /\ d_of M p' = d_of M p /\ n_of M p' = a * n_of M p /\ s_of M p' = a * s_of M p.
(** the two parameter sets differ in scale_d only *)
Definition same_but_d (p p' : vector) : Prop :=
  E_of p' = E_of p /\ (forall c q, (c < num_cells M)%nat -> (q < num_quads (f_ele M))%nat -> rho_of M p' c q = rho_of M p c q)
  /\ n_of M p' = n_of M p /\ s_of M p' = s_of M p.
(** the problem objects after set_params and their residuals *)
Definition inv_objects (jac : vector -> nodal -> (nat -> nat -> nat -> R) -> (nat -> R) -> (nat -> nat -> nat -> R) -> list (nat -> R) -> list (nat -> R) -> jac4)
    (Pp : vector -> problem) (rp : vector -> nodal -> nodal) : Prop :=
  (exists cjac eps, forall p, fem_problem (inv_fem M P_fn p) (inv_inds M Lz) (inv_vars M p) (jac p) cjac (Some (inv_dirichlet M Lz p)) None eps = Ok (Pp p)) /\
  (forall p u, compute_residual_vars (inv_fem M P_fn p) (inv_inds M Lz) u (inv_vars M p) = Ok (rp p u)).
(** jax.jacfwd of the element function at u is its derivative *)
Definition exact_at (jac : vector -> nodal -> (nat -> nat -> nat -> R) -> (nat -> R) -> (nat -> nat -> nat -> R) -> list (nat -> R) -> list (nat -> R) -> jac4) (p : vector) (u : nodal) : Prop :=
  let F := inv_fem M P_fn p in let iv := inv_vars M p in
  forall c, (c < num_cells M)%nat ->
  is_jacobian F (fun s => kernel F s (shape_grads F c) (JxW F c) (v_grads_JxW F c) (vars_at (iv_mass iv) c) (vars_at (iv_laplace iv) c))
    (cells_sol F u c) (cell_jac F (jac p) iv u c).
(** the reduced stiffness matrix at u can be inverted *)
Definition regular (Pp : vector -> problem) (p : vector) (u : nodal) : Prop :=
  exists r ijv, newton_update (Pp p) u = Ok (r, ijv) /\ invertible (num_total_dofs (Pp p)) (lop_apply (num_total_dofs (Pp p)) (get_A_fn (Pp p) ijv false)).
(** everything the gradient computation uses *)
Definition inv_setup jac (Pp : vector -> problem) (rp : vector -> nodal -> nodal) (ev : env) (vjp : (vector -> vector) -> vector -> vector -> vector) : Prop :=
  mesh_ok /\ psi_contract P_fn /\ inv_objects jac Pp rp /\ exact_solvers ev /\
  transposes (num_total_nodes M * 3) (num_total_nodes M * 3) vjp /\ transposes (num_total_nodes M * 3) (inv_size M) vjp.
End InvSpec.
(** the block at rest, lifted by t *)
Definition lifted (t : R) (u : nodal) : Prop := forall n k, (k < 3)%nat -> u n k = if Nat.eqb k 2 then t else 0.
(** three entries per node *)
Definition as_field (sol : vector) : nodal := fun n k => sol (3 * n + k)%nat.
Close Scope R_scope.
