(** * The Poisson example with a nonlinear flux on two sides (applications/fem/cauchy_bc/example.py).
    Definitions only. The mesh (gmsh_mesh, lines 17-48) is an arbitrary mesh of three-node triangles; writing files is left out. *)
From Verif Require Import Prelude FemModel RveModel SaddleModel.
Open Scope R_scope.
Open Scope list_scope.

(** body_force, lines 68-72 *)
Definition cb_force : point -> nat -> R := fun x _ =>
  let dx := x 0%nat - 1 / 2 in let dy := x 1%nat - 1 / 2 in
  x 0%nat * sin (5 * PI * x 1%nat) + 1 * exp (- (dx * dx + dy * dy) / (2 / 100)).
(** top, lines 83-84 (left, right and bottom, lines 74-81, are those of the periodic demo) *)
Definition cb_top : point -> bool := fun p => isclose (p 1%nat) 1.
(** cauchy_map, lines 89-90 *)
Definition cb_map : (nat -> R) -> nat -> R := fun u k => 5 * u k ^ 2.
(** dirichlet_bc_info and cauchy_bc_info, lines 92-96; dirichlet_val, lines 86-87 *)
Definition cb_dirichlet : list (point -> bool) * list nat * list (point -> R) := ([demo_bottom; cb_top], [0; 0]%nat, [fun _ => 1; fun _ => 1]).
Definition cb_cauchy : list (point -> bool) * list ((nat -> R) -> nat -> R) := ([demo_left; demo_right], [cb_map; cb_map]).
Close Scope R_scope.
