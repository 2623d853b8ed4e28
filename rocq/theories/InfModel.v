(** * applications/fem/full_field_infer: a source field inferred from observations of the solution.
    Floats are real numbers. The random choice of the observed nodes is an argument, as are the
    solvers, jax.vjp and the element derivatives. Files, plots and printing are left out. *)
From Coq Require Import String.
From Verif Require Import Prelude FemModel SolverModel MatModel RveModel.
Open Scope R_scope.
Open Scope list_scope.

(** class LinearPoisson, poisson.py:35-54: identity tensor map and body map; vec = 1, line 118.
    [M] carries the mesh and the element; source_info is body_force for problem_fwd (line 119) and
    None for problem_inv (line 142) *)
Definition infer_fem {V} (M : fem V) (src : option (point -> nat -> R)) : fem R :=
  mkFem (f_ele M) (num_total_nodes M) (points M) (cells M) 1 (Some (fun _ => poisson_map)) None (fun u => u) src None None.
(** set_params, 53-54: internal_vars['body'] = params.reshape((num_total_nodes, vec)) *)
Definition set_params (params : vector) : internal_vars R := mkIv [] [] (Some (fun n k => params (n * 1 + k)%nat)) (fun _ => []).
(** the internal variables of problem_fwd, which has no set_params call *)
Definition fresh_vars : internal_vars R := mkIv [] [] None (fun _ => []).
(** dirichlet_bc_info, 83-102 and 111-113 *)
Definition zero_sides (Lx Ly Lz : R) : list (point -> bool) * list nat * list (point -> R) :=
  ([on_plane 0 0; on_plane 0 Lx; on_plane 1 0; on_plane 1 Ly; on_plane 2 0; on_plane 2 Lz], repeat 0%nat 6, repeat (fun _ => 0) 6).
(** compute_L2, 46-50 *)
Definition compute_L2 (F : fem R) (sol : nodal) : R :=
  sumN (num_cells F) (fun c => sumN (num_nodes (f_ele F)) (fun a => sumN (vec F) (fun k =>
    mass_kernel F (fun _ x k => x k ^ 2) (cells_sol F sol c) (JxW F c) [] a k))).

(** J_fn, 148-158; [obs] = observed_inds, [tv] = true_vals. The assertion compares the shapes. *)
Definition J_fn (obs : list nat) (tv : list R) (sol : nodal) : res R :=
  if Nat.eqb (List.length obs) (List.length tv) then Ok (sumR (combine obs tv) (fun p => (sol (fst p) 0%nat - snd p) ^ 2)) else Err AssertionError.
(** the derivative of J_fn with respect to dofs, which jax computes: the scattered 2 (pred - true) *)
Definition J_cotangent (obs : list nat) (tv : list R) (sol : nodal) : vector :=
  fun i => sumR (combine obs tv) (fun p => if Nat.eqb i (fst p) then 2 * (sol (fst p) 0%nat - snd p) else 0).

Section Infer.
Variable ev : env.
Variable agrad : (vector -> R) -> vector -> vector.
Variable fuel : nat.
Variable vjp : (vector -> vector) -> vector -> vector -> vector.
(** the problem object after set_params(p), and its compute_residual *)
Variable Pp : vector -> problem.
Variable rp : vector -> nodal -> nodal.
(** fwd_pred = ad_wrapper(problem_inv, linear=True), 143 and solver.py:929-935 *)
Definition fwd_pred (p : vector) : option (res nodal) := solver ev (Pp p) agrad fuel true true None false.
(** J_total, 164-170 *)
Definition J_total obs tv (p : vector) : option (res R) := option_map (fun s => bind s (J_fn obs tv)) (fwd_pred p).
(** jax.grad(J_total), 192: the rule of ad_wrapper (solver.py:941-945) applied to the derivative of J_fn *)
Definition J_grad obs tv (p : vector) : option (res vector) :=
  option_map (fun s => bind s (fun sol => implicit_vjp ev Pp rp vjp (ravel (Pp p) sol) p (J_cotangent obs tv sol) false)) (fwd_pred p).
End Infer.

(** taylor_tests, 56-72: the pairs (r_zero, r_first) for the four step sizes *)
Definition hs : list R := [1 / 10000; 1 / 1000; 1 / 100; 1 / 10].
Definition taylor_tests (n : nat) (m : vector) (fn : vector -> R) (fn_grad : vector -> vector) : list (R * R) :=
  let direction := fun _ : nat => 1 in
  let J := fn m in
  map (fun h => let m_perturb := fun i => direction i * h + m i in
    (Rabs (fn m_perturb - J), Rabs (fn m_perturb - J - h * sumN n (fun i => fn_grad m i * direction i)))) hs.
(** the reference lines, utils.py:43-44 *)
Definition ref_zero (res_zero : list R) : list R := map (fun h => 1 / 5 * last res_zero 0 / last hs 0 * h) hs.
Definition ref_first (res_first : list R) : list R := map (fun h => 1 / 5 * last res_first 0 / (last hs 0) ^ 2 * h ^ 2) hs.

(** objective_wrapper and derivative_wrapper, 196-210: the derivative is read from an attribute of the
    objective. [value], [grad] are jax.value_and_grad(J_total). *)
Inductive call : Type := Objective (x : vector) | Derivative (x : vector).
Inductive reply : Type := Value (v : R) | Gradient (g : vector).
Section Wrapper.
Variable value : vector -> R.
Variable grad : vector -> vector.
Definition wrapper_step (st : option vector) (c : call) : res (option vector * reply) :=
  match c with
  | Objective x => Ok (Some (grad x), Value (value x))
  | Derivative _ => match st with Some dJ => Ok (st, Gradient dJ) | None => Err AttributeError end
  end.
Fixpoint wrapper_run (st : option vector) (cs : list call) : res (list reply) :=
  match cs with
  | [] => Ok []
  | c :: cs => bind (wrapper_step st c) (fun '(st, r) => bind (wrapper_run st cs) (fun rs => Ok (r :: rs)))
  end.
End Wrapper.
Close Scope R_scope.
