(** * Model of jax_am/fem/solver.py and of the solver part of autodiff_utils.py. Definitions only.
    Reals for floats; a vector is a function of its index (only indices below the length matter).
    The linear solvers, jax.grad / vjp / jvp and the float tests (norm, isfinite) are arguments.
    Logging and timing are left out. *)
From Verif Require Import Prelude FemModel.
Open Scope R_scope.

Definition vector : Type := nat -> R.
Definition IJV : Type := (list nat * list nat * list R)%type.

(** What the functions read from the problem object. [newton_update] returns the residual and the
    triplets it leaves in problem.I, J, V; [loads] is problem.body_force + problem.neumann, which
    it also leaves behind (they do not depend on the solution, core.py:790-799). *)
Record problem : Type := mkProblem
  { num_nodes_p : nat; pvec : nat;
    node_inds_list : list (list nat); vec_inds_list : list (list nat); vals_list : list (list R);
    p_node_inds_list_A : list (list nat); p_node_inds_list_B : list (list nat); p_vec_inds_list : list (list nat);
    has_periodic : bool;                    (* periodic_bc_info is not None *)
    p_num_eps_attr : option R;              (* hasattr(problem, 'p_num_eps') *)
    newton_update : nodal -> res (nodal * IJV);
    loads : nodal }.

(** numpy.linalg.norm may produce a number, an infinity or a NaN *)
Inductive fl : Type := Fin (r : R) | Inf | NaN.
Definition fl_gt (x : fl) (tol : R) : bool := match x with Fin r => Rltb tol r | Inf => true | NaN => false end.
Definition fl_finite (x : fl) : bool := match x with Fin _ => true | _ => false end.

(** A linear operator handed to a linear solver: a Python function (JAX) or a PETSc matrix. *)
Inductive lop : Type := Jop (f : vector -> vector) | Pmat (M : mat).
(** The environment: bicgstab (operator, right-hand side, initial guess, preconditioner), PETSc's
    KSP, numpy.linalg.norm and isfinite on vectors of a given length. *)
Record env : Type := mkEnv
  { bicgstab : nat -> (vector -> vector) -> vector -> option vector -> option (vector -> vector) -> vector;
    ksp : nat -> mat -> vector -> vector;
    fnorm : nat -> vector -> fl;
    all_finite : nat -> vector -> bool }.

Section Solver.
Variable ev : env.
Variable P : problem.
Definition num_total_dofs : nat := (num_nodes_p P * pvec P)%nat.
(** dofs.reshape((num_total_nodes, vec)) and sol.reshape(-1) *)
Definition reshape (dofs : vector) : nodal := fun n k => dofs (pvec P * n + k)%nat.
Definition ravel (s : nodal) : vector := fun i => s (i / pvec P)%nat (i mod pvec P)%nat.
Definition vzero : vector := fun _ => 0.
Definition vadd (a b : vector) : vector := fun i => a i + b i.
Definition vsub (a b : vector) : vector := fun i => a i - b i.
Definition vopp (a : vector) : vector := fun i => - a i.

(** s[nodes, vecs]; a.at[nodes, vecs].set(values) and .add(values) *)
Definition gather (s : nodal) (idx : list (nat * nat)) : list R := map (fun p => s (fst p) (snd p)) idx.
Definition here (n k : nat) (p : nat * nat) : bool := Nat.eqb n (fst p) && Nat.eqb k (snd p).
Definition set_at (a : nodal) (idx : list (nat * nat)) (vals : list R) : nodal :=
  fold_left (fun a u n k => if here n k (fst u) then snd u else a n k) (combine idx vals) a.
Definition add_at (a : nodal) (idx : list (nat * nat)) (vals : list R) : nodal :=
  fold_left (fun a u n k => if here n k (fst u) then a n k + snd u else a n k) (combine idx vals) a.

(** the index pair problem.node_inds_list[i], problem.vec_inds_list[i]; problem.vals_list[i] *)
Definition bc_idx (i : nat) : list (nat * nat) := combine (nth i (node_inds_list P) []) (nth i (vec_inds_list P) []).
Definition bc_vals (i : nat) : list R := nth i (vals_list P) [].
Definition bc_range : list nat := seq 0 (length (node_inds_list P)).

(** apply_bc_vec, solver.py:83-92 *)
Definition apply_bc_vec (res_vec dofs : vector) : vector :=
  let sol := reshape dofs in
  ravel (fold_left (fun r i =>
           let r := set_at r (bc_idx i) (gather sol (bc_idx i)) in
           add_at r (bc_idx i) (map Ropp (bc_vals i))) bc_range (reshape res_vec)).
(** apply_bc, solver.py:95-103 *)
Definition apply_bc (res_fn : vector -> vector) (dofs : vector) : vector := apply_bc_vec (res_fn dofs) dofs.
(** row_elimination, solver.py:106-119 *)
Definition row_elimination (fn : vector -> vector) (dofs : vector) : vector :=
  let sol := reshape dofs in
  ravel (fold_left (fun r i => set_at r (bc_idx i) (gather sol (bc_idx i))) bc_range (reshape (fn dofs))).
(** assign_bc 122-127, assign_ones_bc 130-135, assign_zeros_bc 138-143, copy_bc 146-154 *)
Definition assign_bc (dofs : vector) : vector :=
  ravel (fold_left (fun s i => set_at s (bc_idx i) (bc_vals i)) bc_range (reshape dofs)).
Definition assign_const_bc (c : R) (dofs : vector) : vector :=
  ravel (fold_left (fun s i => set_at s (bc_idx i) (map (fun _ => c) (bc_idx i))) bc_range (reshape dofs)).
Definition assign_ones_bc := assign_const_bc 1.
Definition assign_zeros_bc := assign_const_bc 0.
Definition copy_bc (dofs : vector) : vector :=
  let sol := reshape dofs in
  ravel (fold_left (fun s i => set_at s (bc_idx i) (gather sol (bc_idx i))) bc_range (fun _ _ => 0)).

(** jacobi_preconditioner, solver.py:202-206, on the matrix last assembled; get_jacobi_precond 209-214 *)
Definition jacobi_preconditioner (ijv : IJV) : vector := assign_ones_bc (fun i => coo_entry ijv i i).
Definition jacobi_precond (jacobi : vector) (x : vector) : vector := fun i => x i * (1 / jacobi i).

(** petsc_solve 17-40 and jax_solve 43-76 (no convergence test is active) *)
Definition petsc_solve (n : nat) (A : mat) (b : vector) : vector := ksp ev n A b.
Definition jax_solve (n : nat) (A_fn : vector -> vector) (b : vector) (x0 : option vector) (precond : bool) (ijv : IJV) : vector :=
  let pc := if precond then Some (jacobi_precond (jacobi_preconditioner ijv)) else None in
  bicgstab ev n A_fn b x0 pc.

(** get_A_fn, solver.py:304-329. A.zeroRows puts ones on the diagonal of the zeroed rows. *)
Definition zero_rows (rows : list nat) (M : mat) : mat :=
  fun i j => if existsb (Nat.eqb i) rows then (if Nat.eqb i j then 1 else 0) else M i j.
Definition bc_rows (i : nat) : list nat := map (fun p => (fst p * pvec P + snd p)%nat) (bc_idx i).
Definition get_A_fn (ijv : IJV) (use_petsc : bool) : lop :=
  if use_petsc then Pmat (fold_left (fun A i => zero_rows (bc_rows i) A) bc_range (coo_entry ijv))
  else Jop (row_elimination (coo_mul num_total_dofs ijv)).

(** newton_update_helper, solver.py:357-361; problem.A_sp_scipy is returned as well *)
Definition newton_update_helper (use_petsc : bool) (dofs : vector) : res (vector * lop * IJV) :=
  bind (newton_update P (reshape dofs)) (fun r =>
  let res_vec := apply_bc_vec (ravel (fst r)) dofs in
  Ok (res_vec, get_A_fn (snd r) use_petsc, snd r)).

(** linear_guess_solve, solver.py:233-242. The JAX initial guess is the right-hand side. *)
Definition linear_guess_solve (A : lop) (ijv : IJV) (precond : bool) : vector :=
  let b := assign_bc (ravel (loads P)) in
  match A with
  | Pmat M => petsc_solve num_total_dofs M b
  | Jop f => jax_solve num_total_dofs f b (Some b) precond ijv
  end.
(** linear_incremental_solver, solver.py:245-264 *)
Definition increment_guess (dofs : vector) : vector := vsub (assign_bc vzero) (copy_bc dofs).
Definition linear_incremental_solver (res_vec : vector) (A : lop) (ijv : IJV) (dofs : vector) (precond : bool) : vector :=
  let b := vopp res_vec in
  let inc := match A with
             | Pmat M => petsc_solve num_total_dofs M b
             | Jop f => jax_solve num_total_dofs f b (Some (increment_guess dofs)) precond ijv
             end in
  vadd dofs inc.

(** The loop of solver_row_elimination, solver.py:384-391. [None]: the fuel ran out, i.e. the
    program is still running. *)
Definition tol : R := / 1000000.
Fixpoint newton_loop (fuel : nat) (use_petsc precond : bool) (dofs res_vec : vector) (A : lop) (ijv : IJV) (res_val : fl)
    : option (res (vector * fl)) :=
  if fl_gt res_val tol then
    match fuel with
    | O => None
    | S fuel =>
      let dofs := linear_incremental_solver res_vec A ijv dofs precond in
      match newton_update_helper use_petsc dofs with
      | Err e => Some (Err e)
      | Ok (res_vec, A, ijv) => newton_loop fuel use_petsc precond dofs res_vec A ijv (fnorm ev num_total_dofs res_vec)
      end
    end
  else Some (Ok (dofs, res_val)).

(** solver_row_elimination, solver.py:332-405 *)
Definition finish (x : vector * fl) : res nodal :=
  if fl_finite (snd x) then
    if all_finite ev num_total_dofs (fst x) then Ok (reshape (fst x)) else Err AssertionError
  else Err AssertionError.
Definition solver_row_elimination (fuel : nat) (linear precond : bool) (initial_guess : option nodal) (use_petsc : bool)
    : option (res nodal) :=
  let dofs := vzero in
  if linear then
    let dofs := assign_bc dofs in
    Some (bind (newton_update_helper use_petsc dofs) (fun '(res_vec, A, ijv) =>
          let dofs := linear_incremental_solver res_vec A ijv dofs precond in
          bind (newton_update_helper use_petsc dofs) (fun '(res_vec, A, ijv) =>
          finish (dofs, fnorm ev num_total_dofs res_vec))))
  else
    match (match initial_guess with
           | None => bind (newton_update_helper use_petsc dofs) (fun '(res_vec, A, ijv) => Ok (linear_guess_solve A ijv precond))
           | Some g => Ok (ravel g)
           end) with
    | Err e => Some (Err e)
    | Ok dofs =>
      match newton_update_helper use_petsc dofs with
      | Err e => Some (Err e)
      | Ok (res_vec, A, ijv) =>
        match newton_loop fuel use_petsc precond dofs res_vec A ijv (fnorm ev num_total_dofs res_vec) with
        | None => None
        | Some (Err e) => Some (Err e)
        | Some (Ok x) => Some (finish x)
        end
      end
    end.

(** ** Lagrange multiplier solver *)
Definition list_sum_len (l : list (list nat)) : nat := fold_left (fun s x => (s + length x)%nat) l 0%nat.
(** np.hstack((dofs, tail)) for a dofs of length num_total_dofs *)
Definition hstack (dofs : vector) (tail : list R) : vector :=
  fun i => if Nat.ltb i num_total_dofs then dofs i else nth (i - num_total_dofs) tail 0.
(** aug_dof_w_zero_bc, solver.py:412-418 *)
Definition aug_size : nat := (list_sum_len (node_inds_list P) + list_sum_len (p_node_inds_list_A P))%nat.
Definition aug_dof_w_zero_bc (dofs : vector) : vector := hstack dofs (repeat 0 aug_size).
(** aug_dof_w_bc, solver.py:421-428 *)
Definition aug_dof_w_bc (dofs : vector) (p_num_eps : R) : vector :=
  hstack dofs (flat_map (fun i => map (Rmult p_num_eps) (bc_vals i)) bc_range
               ++ flat_map (fun l => repeat 0 (length l)) (p_node_inds_list_A P)).
(** np.cumsum of the lengths; np.split at the given positions *)
Fixpoint cumsum (s : nat) (l : list (list nat)) : list nat :=
  match l with [] => [] | x :: r => (s + length x)%nat :: cumsum (s + length x) r end.
Fixpoint np_split (start : nat) (splits : list nat) (l : list R) : list (list R) :=
  match splits with
  | [] => [skipn start l]
  | s :: r => firstn (s - start) (skipn start l) :: np_split s r l
  end.
Definition p_idx (side : list (list nat)) (i : nat) : list (nat * nat) := combine (nth i side []) (nth i (p_vec_inds_list P) []).
(** Lagrangian_fn, solver.py:469-500; the Python list index past the end would raise, the split
    lists are always long enough *)
Definition num_aug : nat := (num_total_dofs + aug_size)%nat.
Definition Lagrangian_fn (p_num_eps : R) (dofs_aug : vector) : R :=
  let d_splits := cumsum 0 (node_inds_list P) in
  let p_splits := cumsum 0 (p_node_inds_list_A P) in
  let d_lmbda_len := last d_splits 0%nat in
  let lmbda := map dofs_aug (seq num_total_dofs aug_size) in
  let sol := reshape dofs_aug in
  let d_lmbda_split := np_split 0 d_splits (firstn d_lmbda_len lmbda) in
  let p_lmbda_split := np_split 0 p_splits (skipn d_lmbda_len lmbda) in
  p_num_eps *
  (sumR bc_range (fun i => sumR (combine (nth i d_lmbda_split []) (combine (gather sol (bc_idx i)) (bc_vals i)))
                             (fun t => fst t * (fst (snd t) - snd (snd t))))
   + sumR (seq 0 (length (p_node_inds_list_A P))) (fun i =>
       sumR (combine (nth i p_lmbda_split [])
               (combine (gather sol (p_idx (p_node_inds_list_A P) i)) (gather sol (p_idx (p_node_inds_list_B P) i))))
         (fun t => fst t * (fst (snd t) - snd (snd t))))).
(** compute_residual_lm, solver.py:455-506; [grad] is jax.grad *)
Variable grad : (vector -> R) -> vector -> vector.
Definition compute_residual_lm (res_vec dofs_aug : vector) (p_num_eps : R) : vector :=
  vadd (grad (Lagrangian_fn p_num_eps) dofs_aug) (aug_dof_w_zero_bc res_vec).

(** the triplet loops of get_A_fn_and_res_aug, solver.py:517-548 *)
Definition triplets_d (p_num_eps : R) : nat * (list nat * list nat * list R) :=
  fold_left (fun '(g, (Ii, Jj, Vv)) i =>
      let m := length (nth i (node_inds_list P) []) in
      ((g + m)%nat, (Ii ++ map (fun p => (pvec P * fst p + snd p)%nat) (bc_idx i), Jj ++ seq g m, Vv ++ repeat p_num_eps m)))
    bc_range (num_total_dofs, ([], [], [])).
Definition triplets_p (g0 : nat) (p_num_eps : R) : nat * (list nat * list nat * list R) :=
  fold_left (fun '(g, (Ii, Jj, Vv)) i =>
      let m := length (nth i (p_node_inds_list_A P) []) in
      ((g + m)%nat, (Ii ++ map (fun p => (pvec P * fst p + snd p)%nat) (p_idx (p_node_inds_list_A P) i)
                        ++ map (fun p => (pvec P * fst p + snd p)%nat) (p_idx (p_node_inds_list_B P) i),
                     Jj ++ seq g m ++ seq g m, Vv ++ repeat p_num_eps m ++ repeat (- p_num_eps) m)))
    (seq 0 (length (p_node_inds_list_A P))) (g0, ([], [], [])).
Definition symmetry (t : list nat * list nat * list R) : list nat * list nat * list R :=
  let '(Ii, Jj, Vv) := t in (Ii ++ Jj, Jj ++ Ii, Vv ++ Vv).
Definition cat_ijv (a b : IJV) : IJV :=
  (fst (fst a) ++ fst (fst b), snd (fst a) ++ snd (fst b), snd a ++ snd b).
Definition aug_ijv (ijv : IJV) (p_num_eps : R) : nat * IJV :=
  let '(g1, td) := triplets_d p_num_eps in
  let '(g2, tp) := triplets_p g1 p_num_eps in
  (g2, cat_ijv ijv (cat_ijv (symmetry td) (symmetry tp))).
(** get_A_fn_and_res_aug, solver.py:509-581. With use_petsc the matrix is bound to the name A and
    the returned name A_aug has no value. *)
Definition get_A_fn_and_res_aug (dofs_aug res_vec : vector) (ijv : IJV) (p_num_eps : R) (use_petsc : bool) : res ((vector -> vector) * vector) :=
  let '(group_index, aug) := aug_ijv ijv p_num_eps in
  let A_aug := if use_petsc then None else Some (coo_mul group_index aug) in
  let res_vec_aug := compute_residual_lm res_vec dofs_aug p_num_eps in
  match A_aug with
  | None => Err UnboundLocalError
  | Some A => Ok (A, res_vec_aug)
  end.
Definition newton_update_helper_lm (use_petsc : bool) (p_num_eps : R) (dofs_aug : vector) : res (vector * (vector -> vector)) :=
  bind (newton_update P (reshape dofs_aug)) (fun r =>
  bind (get_A_fn_and_res_aug dofs_aug (ravel (fst r)) (snd r) p_num_eps use_petsc) (fun '(A, r) => Ok (r, A))).
(** linear_guess_solve_lm 431-441 and linear_incremental_solver_lm 444-452; the PETSc branches are
    not reached because the matrix cannot be built *)
Definition linear_guess_solve_lm (A_aug : vector -> vector) (p_num_eps : R) : vector :=
  bicgstab ev num_aug A_aug (aug_dof_w_bc (ravel (loads P)) p_num_eps) (Some (aug_dof_w_zero_bc (assign_bc vzero))) None.
Definition linear_incremental_solver_lm (res_vec_aug : vector) (A_aug : vector -> vector) (dofs_aug : vector) : vector :=
  vadd dofs_aug (bicgstab ev num_aug A_aug (vopp res_vec_aug) None None).
Fixpoint lm_loop (fuel : nat) (use_petsc : bool) (p_num_eps : R) (dofs_aug res_vec_aug : vector) (A_aug : vector -> vector) (res_val : fl)
    : option (res vector) :=
  if fl_gt res_val tol then
    match fuel with
    | O => None
    | S fuel =>
      let dofs_aug := linear_incremental_solver_lm res_vec_aug A_aug dofs_aug in
      match newton_update_helper_lm use_petsc p_num_eps dofs_aug with
      | Err e => Some (Err e)
      | Ok (res_vec_aug, A_aug) => lm_loop fuel use_petsc p_num_eps dofs_aug res_vec_aug A_aug (fnorm ev num_aug res_vec_aug)
      end
    end
  else Some (Ok dofs_aug).
(** solver_lagrange_multiplier, solver.py:584-654 *)
Definition solver_lagrange_multiplier (fuel : nat) (linear use_petsc : bool) : option (res nodal) :=
  let p_num_eps := match p_num_eps_attr P with Some e => e | None => 1 end in
  if linear then
    let dofs_aug := aug_dof_w_zero_bc (assign_bc vzero) in
    Some (bind (newton_update_helper_lm use_petsc p_num_eps dofs_aug) (fun '(res_vec_aug, A_aug) =>
          Ok (reshape (linear_incremental_solver_lm res_vec_aug A_aug dofs_aug))))
  else
    match bind (newton_update_helper_lm use_petsc p_num_eps (aug_dof_w_zero_bc vzero)) (fun '(res_vec_aug, A_aug) =>
          let dofs_aug := linear_guess_solve_lm A_aug p_num_eps in
          bind (newton_update_helper_lm use_petsc p_num_eps dofs_aug) (fun ra => Ok (dofs_aug, ra))) with
    | Err e => Some (Err e)
    | Ok (dofs_aug, (res_vec_aug, A_aug)) =>
      match lm_loop fuel use_petsc p_num_eps dofs_aug res_vec_aug A_aug (fnorm ev num_aug res_vec_aug) with
      | None => None
      | Some (Err e) => Some (Err e)
      | Some (Ok dofs_aug) => Some (Ok (reshape dofs_aug))
      end
    end.

(** solver, solver.py:836-850 *)
Definition solver (fuel : nat) (linear precond : bool) (initial_guess : option nodal) (use_petsc : bool) : option (res nodal) :=
  if has_periodic P then solver_lagrange_multiplier fuel linear use_petsc
  else solver_row_elimination fuel linear precond initial_guess use_petsc.

(** ** Dynamic relaxation *)
(** calC, solver.py:685-693 *)
Definition calC (t cmin cmax : R) : R :=
  let t := if Rltb t 0 then 0 else t in
  let c := 2 * sqrt t in
  let c := if Rltb c cmin then cmin else c in
  if Rltb cmax c then cmax else c.
(** The first statements of dynamic_relax_solve, solver.py:725-732: [dofs] is assigned in the
    function (line 732), hence local, and has no value when line 731 reads it. The rest of the
    body only runs when that statement returns. *)
Definition dynamic_relax_solve (rest : vector -> res nodal) : res nodal :=
  let dofs : option vector := None in
  match dofs with
  | None => Err UnboundLocalError
  | Some dofs =>
    bind (newton_update_helper false dofs) (fun '(res_vec, A, ijv) => rest (linear_guess_solve A ijv true))
  end.
End Solver.

(** ** Implicit differentiation. The problem depends on a parameter vector through set_params:
    [Pp p] is the problem after set_params(p) and [rp p] its compute_residual (an exception raised
    inside is not modelled here). [vjp f x w] is the cotangent f_vjp(w) of jax.vjp(f, x),
    [jvp f x d] the tangent of jax.jvp / jax.linearize. *)
Section Implicit.
Variable ev : env.
Variable Pp : vector -> problem.
Variable rp : vector -> nodal -> nodal.
Variable vjp : (vector -> vector) -> vector -> vector -> vector.
Variable jvp : (vector -> vector) -> vector -> vector -> vector.
(** constraint_fn, solver.py:859-866 (get_flatten_fn 157-164) *)
Definition constraint_fn (dofs params : vector) : vector :=
  let P := Pp params in
  apply_bc P (fun d => ravel P (rp params (reshape P d))) dofs.
Definition transpose (M : mat) : mat := fun i j => M j i.
(** implicit_vjp, solver.py:857-926; sol and the result are flat here *)
Definition implicit_vjp (sol params v : vector) (use_petsc : bool) : res vector :=
  let P := Pp params in
  bind (newton_update P (reshape P sol)) (fun r =>
  let adjoint := match get_A_fn P (snd r) use_petsc with
                 | Pmat M => petsc_solve ev (num_total_dofs P) (transpose M) v
                 | Jop A_fn => jax_solve ev P (num_total_dofs P) (vjp A_fn sol) v None true (snd r)
                 end in
  Ok (vopp (vjp (constraint_fn sol) params adjoint))).
(** implicit_jvp_helper, autodiff_utils.py:78-140 *)
Definition implicit_jvp_helper (sol0 params0 params_dot0 : vector) : res vector :=
  let P := Pp params0 in
  bind (newton_update P (reshape P sol0)) (fun r =>
  let jvp_fn := jvp (fun dofs => constraint_fn dofs params0) sol0 in
  let backward_rhs := jvp (constraint_fn sol0) params0 params_dot0 in
  Ok (jax_solve ev P (num_total_dofs P) jvp_fn (vopp backward_rhs) None false (snd r))).
End Implicit.

(** ** A problem object built from the finite-element model: newton_update is compute_newton_vars
    with the problem's internal variables (core.py:850-854), Dirichlet lists from
    Dirichlet_boundary_conditions (core.py:110-113), periodic lists likewise (117, 315-350). *)
Section FemProblem.
Context {V : Type}.
Definition fem_loads (F : fem V) (inds : list (list (nat * nat))) (iv : internal_vars V) : res nodal :=
  bind (compute_Neumann_integral_vars F inds (iv_neumann iv)) (fun neumann =>
  let body_force := match iv_body iv with Some b => compute_body_force_by_sol F b | None => compute_body_force_by_fn F end in
  Ok (fun n k => body_force n k + neumann n k)).
Definition fem_problem (F : fem V) inds iv jac cjac dirichlet_bc_info (periodic_bc_info : option _) (eps : option R) : res problem :=
  bind (Dirichlet_boundary_conditions F dirichlet_bc_info) (fun '(nl, vl, xl) =>
  bind (match periodic_bc_info with None => Ok [] | Some info => periodic_boundary_conditions F info end) (fun pl =>
  bind (fem_loads F inds iv) (fun ld =>
  Ok (mkProblem (num_total_nodes F) (vec F) nl vl xl
        (map (fun t => fst (fst t)) pl) (map (fun t => snd (fst t)) pl) (map snd pl)
        (match periodic_bc_info with None => false | Some _ => true end) eps
        (fun sol => compute_newton_vars F inds sol iv jac cjac) ld)))).
End FemProblem.
Close Scope R_scope.
