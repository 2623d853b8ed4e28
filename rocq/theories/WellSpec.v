(** * Vocabulary for the solvability of linear problems. Definitions only. *)
From Coq Require Import String.
From Verif Require Import Prelude FemModel FemSpec FemMatProofs BasisModel BasisSpec SolverModel SolverSpec BoxSpec.
From Verif Require MeshModel.
Open Scope R_scope.

Section WellSpec.
Context {V : Type}.
Variable F : fem V.
(** the stress is a linear function of the gradient *)
Definition linear_tensor (tm : list V -> mat -> mat) : Prop :=
  forall vars a G H k d, (k < vec F)%nat -> (d < dim F)%nat -> tm vars (fun i j => a * G i j + H i j) k d = a * tm vars G k d + tm vars H k d.
(** jax.jacfwd of the element function is its derivative, at every solution and in every cell *)
Definition exact_jacobians (iv : internal_vars V) jac : Prop :=
  forall sol c, (c < num_cells F)%nat ->
  is_jacobian F (fun s => kernel F s (shape_grads F c) (JxW F c) (v_grads_JxW F c) (vars_at (iv_mass iv) c) (vars_at (iv_laplace iv) c))
    (cells_sol F sol c) (cell_jac F jac iv sol c).
(** work of the stress of u on the gradient of v *)
Definition energy_form (iv : internal_vars V) (u v : nodal) : R :=
  sumN (num_cells F) (fun c => sumN (num_quads (f_ele F)) (fun q => JxW F c q *
    sumN (vec F) (fun k => sumN (dim F) (fun d => stress F iv u c q k d * sol_to_grad F v c q k d)))).
(** work of the loads on v *)
Definition load_work (inds : list (list (nat * nat))) (iv : internal_vars V) (v : nodal) : R := body_power F iv v + neumann_power F inds iv v.
(** total potential energy *)
Definition potential inds iv (u : nodal) : R := / 2 * energy_form iv u u - load_work inds iv u.

Variables (locs : list (point -> bool)) (vecs : list nat) (fns : list (point -> R)).
(** component k of node n carries a Dirichlet condition *)
Definition fixed (n k : nat) : Prop := exists i, applies F locs vecs i n k.
(** the field takes the values of the Dirichlet conditions (the last one counts) *)
Definition takes_values (u : nodal) : Prop :=
  forall i n k, (n < num_total_nodes F)%nat -> last_applying F locs vecs i n k -> u n k = nth i fns (fun _ => 0) (points F n).
(** ... and the residual vanishes at all other components *)
Definition discrete_solution inds iv (u : nodal) : Prop :=
  takes_values u /\ exists r, compute_residual_vars F inds u iv = Ok r /\
  forall n k, (n < num_total_nodes F)%nat -> (k < vec F)%nat -> ~ fixed n k -> r n k = 0.
Definition same_field (u w : nodal) : Prop := forall n k, (n < num_total_nodes F)%nat -> (k < vec F)%nat -> u n k = w n k.
(** a displacement that leaves the fixed components alone *)
Definition admissible (d : nodal) : Prop := forall n k, (n < num_total_nodes F)%nat -> (k < vec F)%nat -> fixed n k -> d n k = 0.
(** the mesh is a box mesh of eight-node hexahedra with the tables of jax_fem/basis.py *)
Definition box_hex (B : basix) (Nx Ny Nz : nat) (Lx Ly Lz : R) : Prop :=
  let m := MeshModel.box_mesh Nx Ny Nz Lx Ly Lz in
  documented_basix B /\ exact_rule B hexahedron 2 /\ (0 < Nx)%nat /\ (0 < Ny)%nat /\ (0 < Nz)%nat /\ 0 < Lx /\ 0 < Ly /\ 0 < Lz /\
  has_mesh3 F (MeshModel.points m) (MeshModel.cells m) /\ num_total_nodes F = List.length (MeshModel.points m) /\ element_tables B "HEX8" = Ok (f_ele F).
(** internal variables of the right sizes, one traction per boundary, faces of existing cells *)
Definition loads_ok (inds : list (list (nat * nat))) (iv : internal_vars V) : Prop :=
  iv_sized F iv /\ neumann_ok F inds /\ forall s, In s inds -> faces_ok F s.
End WellSpec.
(** ** positions in the reference cube *)
Definition cube_point (x y z : R) : point := fun d => match d with 0%nat => x | 1%nat => y | _ => z end.
Close Scope R_scope.
