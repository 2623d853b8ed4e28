(** * Vocabulary for the inferred source. Definitions only. *)
From Coq Require Import String.
From Verif Require Import Prelude FemModel FemSpec FemMatProofs BasisModel BasisSpec MatModel SolverModel SolverSpec BoxSpec WellSpec InfModel.
Open Scope R_scope.

(** jax.vjp of a function from R^n to R^n with derivative D at x: the transposed derivative *)
Definition vjp_contract (n : nat) (vjp : (vector -> vector) -> vector -> vector -> vector) : Prop :=
  forall f x D, linear_map n n D -> (forall d i, (i < n)%nat -> derivable_pt_lim (fun t => f (step x t d) i) 0 (D d i)) -> vjp_ok n n vjp f x D.
(** the script's set-up on a box mesh: problem objects after set_params, their residuals, exact external code *)
Definition infer_setup {V} (M : fem V) (B : basix) (Nx Ny Nz : nat) (Lx Ly Lz : R) (ev : env) (vjp : (vector -> vector) -> vector -> vector -> vector)
    (Pp : vector -> problem) (rp : vector -> nodal -> nodal) : Prop :=
  let F := infer_fem M None in
  box_hex F B Nx Ny Nz Lx Ly Lz /\ exact_solvers ev /\ exact_floats ev /\ vjp_contract (num_total_nodes F) vjp /\
  (exists jac cjac eps, (forall p, exact_jacobians F (set_params p) jac) /\
     forall p, fem_problem F [] (set_params p) jac cjac (Some (zero_sides Lx Ly Lz)) None eps = Ok (Pp p)) /\
  (forall p u, compute_residual_vars F [] u (set_params p) = Ok (rp p u)).
(** observed values belong to nodes of the mesh, one value each *)
Definition observations {V} (M : fem V) (obs : list nat) (tv : list R) : Prop :=
  List.length obs = List.length tv /\ Forall (fun n => (n < num_total_nodes M)%nat) obs.
(** the field of the sources p for the matrix G *)
Definition field_of (N : nat) (G : mat) (p : vector) (n : nat) : R := sumN N (fun j => G n j * p j).
(** integral of the square of the interpolated field by the quadrature rule of the elements *)
Definition square_integral {V} (F : fem V) (sol : nodal) : R :=
  sumN (num_cells F) (fun c => sumN (num_quads (f_ele F)) (fun q => JxW F c q * sumN (vec F) (fun k => at_quad F sol c q k ^ 2))).
(** every derivative that the optimiser asks for is asked at the point of the last objective *)
Fixpoint in_step (last : option vector) (cs : list call) : Prop :=
  match cs with
  | [] => True
  | Objective x :: cs => in_step (Some x) cs
  | Derivative x :: cs => last = Some x /\ in_step last cs
  end.
Definition right_reply (value : vector -> R) (grad : vector -> vector) (c : call) : reply :=
  match c with Objective x => Value (value x) | Derivative x => Gradient (grad x) end.
Close Scope R_scope.
