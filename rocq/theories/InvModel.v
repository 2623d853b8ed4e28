(** * demos/fem/inverse/example.py: derivatives of a hyperelastic solution with respect to five kinds of
    parameters. Floats are real numbers; jax.grad(psi), jax.vjp, the solvers and the element derivatives
    are arguments. The mesh is an argument [M]; files and printing are left out. *)
From Coq Require Import String.
From Verif Require Import Prelude FemModel SolverModel MatModel RveModel.
Open Scope R_scope.
Open Scope list_scope.

Section Inverse.
Context {V : Type}.
Variable M : fem V.
Variable P_fn : R -> R -> mat -> mat.
Variable Lz : R.
Definition inv_nq : nat := num_quads (f_ele M).
Definition inv_nc : nat := num_cells M.
(** params = [E, rho, scale_d, scale_n, scale_s], line 97, as one flat vector *)
Definition E_of (p : vector) : R := p 0%nat.
Definition rho_of (p : vector) (c q : nat) : R := p (1 + (c * inv_nq + q))%nat.
Definition d_of (p : vector) : R := p (1 + inv_nc * inv_nq)%nat.
Definition n_of (p : vector) : R := p (2 + inv_nc * inv_nq)%nat.
Definition s_of (p : vector) : R := p (3 + inv_nc * inv_nq)%nat.
Definition inv_size : nat := 4 + inv_nc * inv_nq.
(** get_tensor_map, 15-33: psi(F, rho) is [psi_E (E * rho) 0.3] and [P_fn] its gradient in F *)
Definition inv_tensor_map (E : R) (vars : list R) (u_grad : mat) : mat :=
  match vars with [rho] => P_fn (E * rho) (3 / 10) (fun i j => u_grad i j + eye i j) | _ => fun _ _ => 0 end.
(** get_body_force, 68-73, and get_neumann_top, 60-65 *)
Definition get_body_force (scale : R) : point -> nat -> R := fun _ k => match k with 0%nat => scale * 100 | _ => 0 end.
Definition get_neumann_top (scale : R) : point -> list R -> nat -> R := fun _ _ k => match k with 2%nat => - (scale * 100) | _ => 0 end.
(** get_dirichlet_bottom, 53-57, and dirichlet_bc_info, 88 *)
Definition get_dirichlet_bottom (scale : R) : point -> R := fun _ => scale * Lz.
Definition inv_dirichlet (p : vector) : list (point -> bool) * list nat * list (point -> R) :=
  ([on_plane 2 0; on_plane 2 0; on_plane 2 0], [0; 1; 2]%nat, [fun _ => 0; fun _ => 0; get_dirichlet_bottom (d_of p)]).
(** the problem after set_params(p), 35-42 and 89-91 *)
Definition inv_fem (p : vector) : fem R :=
  mkFem (f_ele M) (num_total_nodes M) (points M) (cells M) 3 (Some (inv_tensor_map (E_of p))) None (fun u => u)
    (Some (get_body_force (s_of p))) (Some [get_neumann_top (n_of p)]) None.
Definition inv_vars (p : vector) : internal_vars R := mkIv [] [map (rho_of p) (seq 0 inv_nc)] None (fun _ => []).
Definition inv_inds : list (list (nat * nat)) := get_boundary_conditions_inds M [on_plane 2 Lz].
(** test_fn, 105-106, and its derivative *)
Definition test_fn (sol : nodal) : R := sumN (num_total_nodes M) (fun n => sumN 3 (fun k => sol n k ^ 2)).
Definition test_cotangent (sol : nodal) : vector := fun i => 2 * sol (i / 3)%nat (i mod 3)%nat.
(** params_scale_d, 123-124, and the other four, 115-132: one entry multiplied by 1 + h *)
Definition scale_entry (j : nat) (h : R) (p : vector) : vector := fun i => if Nat.eqb i j then (1 + h) * p i else p i.
(** the difference quotients, 117-133 *)
Definition fd_quotient (composed : vector -> R) (j : nat) (h : R) (p : vector) : R := (composed (scale_entry j h p) - composed p) / (h * p j).
End Inverse.
Close Scope R_scope.
