(** * The thermal problem of demos/fem/thermal_mechanical/example.py: boundary conditions, parameters of a time step. *)
From Verif Require Import Prelude FemModel MatModel RveModel.
Open Scope R_scope.
Open Scope list_scope.

(** top, bottom and walls, lines 175-186; [isclose] has the absolute tolerance 1e-5 given there and the default
    relative tolerance 1e-5 *)
Definition top (Lz : R) (p : point) : bool := isclose (p 2%nat) Lz.
Definition bottom (p : point) : bool := isclose (p 2%nat) 0.
Definition walls (Lx Ly : R) (p : point) : bool :=
  isclose (p 0%nat) 0 || isclose (p 0%nat) Lx || isclose (p 1%nat) 0 || isclose (p 1%nat) Ly.
(** lines 169-170 *)
Definition demo_N : nat * nat * nat := (50, 20, 5)%nat.
Definition demo_L : R * R * R := (5 / 10000, 2 / 10000, 5 / 100000).
(** thermal_dirichlet_bottom, lines 209-210 *)
Definition thermal_dirichlet_bottom (p : point) : R := T0.
(** the value functions after Thermal.set_params, line 47, has set the first one *)
Definition demo_fluxes (laser_center : point) (switch : R) : list (point -> list (nat -> R) -> nat -> R) :=
  [neumann_top laser_center switch; neumann_walls].
(** Thermal.set_params, lines 38-47: the old temperature at the quadrature points of the cells and of the selected
    faces; [inds] is neumann_boundary_inds_list *)
Definition thermal_vars (F : fem (nat -> R)) (inds : list (list (nat * nat))) (T_old : nodal) : internal_vars (nat -> R) :=
  mkIv [map (fun c => convert_from_dof_to_quad F T_old c) (seq 0 (num_cells F))] [] None
       (fun i => [fun j p => convert_neumann_from_dof F T_old (nth j (nth i inds []) (0, 0)%nat) p]).
Close Scope R_scope.
