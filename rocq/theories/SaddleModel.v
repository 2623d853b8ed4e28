(** * The periodic Poisson demo, applications/fem/periodic_bc/example.py. *)
From Coq Require Import String.
From Verif Require Import Prelude FemModel RveModel.
Open Scope R_scope.

(** body_force, example.py:66-70 *)
Definition demo_force (x : point) (k : nat) : R :=
  let dx := x 0%nat - 1 / 2 in
  let dy := x 1%nat - 1 / 2 in
  x 0%nat * sin (5 * PI * x 1%nat) + 1 * exp (- (dx * dx + dy * dy) / (2 / 100)).
(** left, right, bottom, top, example.py:72-82: np.isclose(a, b, atol=1e-5) *)
Definition demo_left (p : point) : bool := isclose (p 0%nat) 0.
Definition demo_right (p : point) : bool := isclose (p 0%nat) 1.
Definition demo_bottom (p : point) : bool := isclose (p 1%nat) 0.
Definition demo_top (p : point) : bool := isclose (p 1%nat) 1.
(** mapping_x, example.py:87-89: point_A + [1, 0] *)
Definition demo_mapping (p : point) : point := fun k => p k + (if Nat.eqb k 0 then 1 else 0).
(** periodic_bc_info and dirichlet_bc_info, example.py:91-99 *)
Definition demo_periodic : list ((point -> bool) * (point -> bool) * (point -> point) * nat) := [(demo_left, demo_right, demo_mapping, 0%nat)].
Definition demo_dirichlet : list (point -> bool) * list nat * list (point -> R) :=
  ([demo_bottom; demo_top], [0; 0]%nat, [fun _ => 0; fun _ => 0]).
Close Scope R_scope.
