(** * Vocabulary for implicit time steps of the thermal problem. Definitions only. *)
From Coq Require Import String.
From Verif Require Import Prelude FemModel FemSpec BasisModel BasisSpec MatModel SolverModel SolverSpec WellSpec MaxSpec HeatModel.
Open Scope R_scope.

(** one unknown per node; the flux is kappa times the gradient and the reaction grows with the slope alpha *)
Definition reactive {V : Type} (F : fem V) (kappa : R) (alpha : list V -> R) : Prop :=
  vec F = 1%nat /\ (exists tm, tensor_map F = Some tm /\ forall vars G k d, tm vars G k d = kappa * G k d)
  /\ exists mm, mass_map F = Some mm /\ forall vars u w k, mm vars u k - mm vars w k = alpha vars * (u k - w k).
(** eight-node hexahedra with the tables of basis.py, none of them turned inside out *)
Definition hex_mesh {V : Type} (F : fem V) (B : basix) : Prop :=
  documented_basix B /\ exact_rule B hexahedron 2 /\ nonneg_rule B hexahedron 2 /\ element_tables B "HEX8" = Ok (f_ele F)
  /\ wf_mesh F /\ (0 < num_cells F)%nat
  /\ forall c q, (c < num_cells F)%nat -> (q < num_quads (f_ele F))%nat -> 0 < jacobian_det F c q.
(** every node belongs to a cell or is fixed *)
Definition covered {V : Type} (F : fem V) (locs : list (point -> bool)) (vecs : list nat) : Prop :=
  forall n, (n < num_total_nodes F)%nat -> (exists c a, (c < num_cells F)%nat /\ (a < num_nodes (f_ele F))%nat /\ cell_node F c a = n) \/ fixed F locs vecs n 0%nat.
(** slopes of the two mass maps *)
Definition thermal_slope (dt : R) (vars : list (nat -> R)) : R := match vars with [_] => 8440 * 588 / dt | _ => 0 end.
Definition damage_slope (vars : list R) : R := match vars with [history] => G_c / fr_l + 2 * history | _ => 0 end.

(** the Thermal class with time step dt and these fluxes *)
Definition thermal_class (F : fem (nat -> R)) (dt : R) (fluxes : option (list (point -> list (nat -> R) -> nat -> R))) : Prop :=
  vec F = 1%nat /\ tensor_map F = Some thermal_tensor_map /\ mass_map F = Some (thermal_mass_map dt) /\ source_info F = None
  /\ cauchy_bc_info F = None /\ neumann_bc_info F = fluxes.
(** integral of the square of the distance of a temperature from 300 *)
Definition heat_norm (F : fem (nat -> R)) (T : nodal) : R :=
  sumN (num_cells F) (fun c => sumN (num_quads (f_ele F)) (fun q => JxW F c q * (at_quad F T c q 0%nat - 300) ^ 2)).
(** fields that follow each other by time steps without fluxes, Dirichlet value 300 *)
Fixpoint insulated_run (F : fem (nat -> R)) (locs : list (point -> bool)) (vecs : list nat) (T : nodal) (later : list nodal) : Prop :=
  match later with
  | nil => True
  | T' :: r => discrete_solution F locs vecs (map (fun _ _ => 300) locs) nil (thermal_vars F nil T) T' /\ insulated_run F locs vecs T' r
  end.
Close Scope R_scope.
