(** * Model of applications/fem/crystal_plasticity/models.py. Definitions only.
    The class works in three dimensions (the rotation matrices and the elastic constants are 3 x 3 and
    3 x 3 x 3 x 3). The file data/csv/input_slip_sys.txt is not part of the repository: the slip systems
    are an argument. jax.flatten_util.ravel_pytree and its inverse only reshape, so the unknown of the
    local problem is kept as a 3 x 3 tensor. jax.jacfwd and np.linalg.solve are arguments. A division by
    zero gives inf or nan in the code and an unspecified number here. *)
From Verif Require Import Prelude FemModel MatModel.
Open Scope R_scope.

Definition tensor4 : Type := nat -> nat -> nat -> nat -> R.
(** rotate_tensor_rank_4, 21-26, rotate_tensor_rank_2, 29-32 *)
Definition rotate4 (Q : mat) (T : tensor4) : tensor4 := fun i j k l =>
  sumN 3 (fun a => sumN 3 (fun b => sumN 3 (fun c => sumN 3 (fun d => Q i a * Q j b * Q k c * Q l d * T a b c d)))).
Definition rotate2 (Q T : mat) : mat := fun i j => sumN 3 (fun a => sumN 3 (fun b => Q i a * Q j b * T a b)).
(** get_rot_mat, 37-44 *)
Definition get_rot_mat (q : nat -> R) : mat := fun i j =>
  let q0 := q 0%nat in let q1 := q 1%nat in let q2 := q 2%nat in let q3 := q 3%nat in
  match i, j with
  | 0%nat, 0%nat => q0 * q0 + q1 * q1 - q2 * q2 - q3 * q3
  | 0%nat, 1%nat => 2 * q1 * q2 - 2 * q0 * q3
  | 0%nat, 2%nat => 2 * q1 * q3 + 2 * q0 * q2
  | 1%nat, 0%nat => 2 * q1 * q2 + 2 * q0 * q3
  | 1%nat, 1%nat => q0 * q0 - q1 * q1 + q2 * q2 - q3 * q3
  | 1%nat, 2%nat => 2 * q2 * q3 - 2 * q0 * q1
  | 2%nat, 0%nat => 2 * q1 * q3 - 2 * q0 * q2
  | 2%nat, 1%nat => 2 * q2 * q3 + 2 * q0 * q1
  | 2%nat, 2%nat => q0 * q0 - q1 * q1 - q2 * q2 + q3 * q3
  | _, _ => 0
  end.

(** ** custom_init, 51-118 *)
(** a row of input_slip_sys: normal, then direction *)
Definition slip_row : Type := point * point.
Definition len3 (v : point) : R := sqrt (sumN 3 (fun i => v i ^ 2)).
Definition schmid (r : slip_row) : mat := fun i j => snd r i / len3 (snd r) * (fst r j / len3 (fst r)).
(** lines 64-69: q starts as r everywhere; q[i, i//3*3 + j] = 1 raises IndexError beyond the array *)
Definition q_matrix (r : R) (n : nat) : res (nat -> nat -> R) :=
  let writes := flat2 n 3 (fun i j => (i, i / 3 * 3 + j)%nat) in
  fold_left (fun q ij => bind q (fun q => if Nat.ltb (snd ij) n
      then Ok (fun a b => if Nat.eqb a (fst ij) && Nat.eqb b (snd ij) then 1 else q a b) else Err IndexError))
    writes (Ok (fun _ _ => r)).
(** the elastic constants, 77-116 *)
Definition C11 : R := 168400.
Definition C12 : R := 121400.
Definition C44 : R := 75400.
Definition elastic_C : tensor4 := fun i j k l =>
  match i, j, k, l with
  | 0%nat, 0%nat, 0%nat, 0%nat => C11 | 1%nat, 1%nat, 1%nat, 1%nat => C11 | 2%nat, 2%nat, 2%nat, 2%nat => C11
  | 0%nat, 0%nat, 1%nat, 1%nat => C12 | 1%nat, 1%nat, 0%nat, 0%nat => C12
  | 0%nat, 0%nat, 2%nat, 2%nat => C12 | 2%nat, 2%nat, 0%nat, 0%nat => C12
  | 1%nat, 1%nat, 2%nat, 2%nat => C12 | 2%nat, 2%nat, 1%nat, 1%nat => C12
  | 1%nat, 2%nat, 1%nat, 2%nat => C44 | 1%nat, 2%nat, 2%nat, 1%nat => C44 | 2%nat, 1%nat, 1%nat, 2%nat => C44 | 2%nat, 1%nat, 2%nat, 1%nat => C44
  | 2%nat, 0%nat, 2%nat, 0%nat => C44 | 2%nat, 0%nat, 0%nat, 2%nat => C44 | 0%nat, 2%nat, 2%nat, 0%nat => C44 | 0%nat, 2%nat, 0%nat, 2%nat => C44
  | 0%nat, 1%nat, 0%nat, 1%nat => C44 | 0%nat, 1%nat, 1%nat, 0%nat => C44 | 1%nat, 0%nat, 0%nat, 1%nat => C44 | 1%nat, 0%nat, 1%nat, 0%nat => C44
  | _, _, _, _ => 0
  end.
(** the state of a quadrature point *)
Record crystal : Type := mkCrystal { Fp_inv : mat; slip_resistance : nat -> R; slip : nat -> R; rot_mat : mat }.
Definition gss_initial : R := 608 / 10.
(** the orientation of cell c is row cell_ori_inds[c] of quat; jax indexing takes the last row for an
    index past the end *)
Definition crystal_init (quat : list (nat -> R)) (cell_ori_inds : nat -> nat) (c q : nat) : crystal :=
  mkCrystal eye (fun _ => gss_initial) (fun _ => 0)
    (nth (Nat.min (cell_ori_inds c) (length quat - 1)) (map get_rot_mat quat) (fun _ _ => 0)).

(** ** get_maps, 124-243 *)
(** np.sign; np.absolute(x)**a for a > 0 *)
Definition sgn (x : R) : R := if Rltb 0 x then 1 else if Rltb x 0 then -1 else 0.
Definition abspow (x a : R) : R := if Reqb x 0 then 0 else Rpower (Rabs x) a.
Definition h_hard : R := 5415 / 10.
Definition t_sat : R := 1098 / 10.
Definition gss_a : R := 25 / 10.
Definition ao : R := / 1000.
Definition xm : R := / 10.
Section Point.
(** the slip systems, the matrix q, the time step, and the old state *)
Variables (rows : list slip_row) (qm : nat -> nat -> R) (dt : R) (s : crystal).
Let n := length rows.
Definition slip_tensor (a : nat) : mat := rotate2 (rot_mat s) (schmid (nth a rows (fun _ => 0, fun _ => 0))).
(** helper, 151-169 *)
Definition tau (S : mat) (a : nat) : R := ddot 3 S (slip_tensor a).
Definition gamma_inc (S : mat) (a : nat) : R :=
  ao * dt * abspow (tau S a / slip_resistance s a) (1 / xm) * sgn (tau S a).
Definition g_inc (S : mat) (a : nat) : R :=
  sumN n (fun b => qm a b * (h_hard * Rabs (gamma_inc S b) * abspow (1 - slip_resistance s b / t_sat) gss_a * sgn (1 - slip_resistance s b / t_sat))).
Definition slip_resistance_new (S : mat) (a : nat) : R := slip_resistance s a + g_inc S a.
Definition slip_new (S : mat) (a : nat) : R := slip s a + gamma_inc S a.
Definition F_of (u_grad : mat) : mat := fun i j => u_grad i j + eye i j.
Definition L_plastic_inc (S : mat) : mat := fun i j => sumN n (fun a => gamma_inc S a * slip_tensor a i j).
Definition Fp_inv_new (S : mat) : mat := matmul 3 (Fp_inv s) (fun i j => eye i j - L_plastic_inc S i j).
Definition Fe_of (u_grad S : mat) : mat := matmul 3 (F_of u_grad) (Fp_inv_new S).
(** implicit_residual, 171-177 *)
Definition S_of (Fe : mat) : mat := fun i j =>
  sumN 3 (fun k => sumN 3 (fun l => rotate4 (rot_mat s) elastic_C i j k l * 1 / 2 * (matmul 3 (transpose Fe) Fe k l - eye k l))).
Definition implicit_residual (u_grad S : mat) : mat := fun i j => S i j - S_of (Fe_of u_grad S) i j.
(** newton_solver, 179-225. [fuel] bounds the number of outer steps looked at; the code has no bound. *)
Definition fnorm (A : mat) : R := sqrt (ddot 3 A A).
Variables (jac : (mat -> mat) -> mat -> tensor4) (solve : tensor4 -> mat -> mat).
Definition axpy (t : R) (d y : mat) : mat := fun i j => y i j + t * d i j.
(** the inner loop, with [todo] sub-steps to go *)
Fixpoint line_search (f : mat -> mat) (res_vec y y_inc : mat) (todo : nat) (relax : R) (crt : mat) : R * mat :=
  match todo with
  | 0%nat => (relax, crt)
  | S todo => if Rleb (fnorm res_vec) (fnorm crt)
              then line_search f res_vec y y_inc todo (/ 2 * relax) (f (axpy relax y_inc y))
              else (relax, crt)
  end.
Definition newton_step (f : mat -> mat) (st : mat * mat) : mat * mat :=
  let (res_vec, y) := st in
  let y_inc := solve (jac f y) (fun i j => - res_vec i j) in
  let (relax_f, res_f) := line_search f res_vec y y_inc 5 1 res_vec in
  (res_f, axpy (2 * relax_f) y_inc y).
Definition tol : R := / 10 ^ 8.
Fixpoint newton_loop (fuel : nat) (f : mat -> mat) (st : mat * mat) : option mat :=
  if Rltb tol (fnorm (fst st)) then
    match fuel with 0%nat => None | S fuel => newton_loop fuel f (newton_step f st) end
  else Some (snd st).
Definition newton_solver (fuel : nat) (u_grad : mat) : option mat :=
  let f := implicit_residual u_grad in
  newton_loop fuel f (f (fun _ _ => 0), fun _ _ => 0).
(** f_jvp, 227-235: the tangent of the local solution for a tangent v of u_grad (the tangents of the old
    state are zero here), at the local solution S *)
Definition f_jvp (u_grad S v : mat) : mat :=
  let jac_x := jac (fun u => implicit_residual u S) u_grad in
  let jac_y := jac (implicit_residual u_grad) S in
  solve jac_y (fun i j => - sumN 3 (fun k => sumN 3 (fun l => jac_x i j k l * v k l))).
(** first_PK_stress, 135-142, given the result of the local solve *)
Definition PK_of (u_grad S : mat) : mat :=
  let Fe := Fe_of u_grad S in
  let F := F_of u_grad in
  let sigma := matmul 3 (fun i j => 1 / det 3 Fe * matmul 3 Fe S i j) (transpose Fe) in
  matmul 3 (fun i j => det 3 F * sigma i j) (transpose (inv 3 F)).
Definition first_PK (fuel : nat) (u_grad : mat) : option mat := option_map (PK_of u_grad) (newton_solver fuel u_grad).
(** update_int_vars, 144-149 *)
Definition new_state (S : mat) : crystal := mkCrystal (Fp_inv_new S) (slip_resistance_new S) (slip_new S) (rot_mat s).
Definition update_int_vars (fuel : nat) (u_grad : mat) : option crystal := option_map new_state (newton_solver fuel u_grad).
End Point.
(** P_to_sigma, 279-280 *)
Definition P_to_sigma (P F : mat) : mat := matmul 3 (fun i j => 1 / det 3 F * P i j) (transpose F).

(** ** The problem. A load step sees the solution of every local problem: [local s u_grad] is what
    newton_solver returns. Internal variables of kind 'laplace' are the four arrays; here one array of
    states. *)
Section Body.
Variable F : fem crystal.
Variables (rows : list slip_row) (qm : nat -> nat -> R) (dt : R) (local : crystal -> mat -> mat).
Definition crystal_tensor_map (vars : list crystal) (u_grad : mat) : mat :=
  match vars with [s] => PK_of rows dt s u_grad (local s u_grad) | _ => fun _ _ => 0 end.
Definition crystal_vars (params : nat -> nat -> crystal) : internal_vars crystal :=
  mkIv [] [map params (seq 0 (num_cells F))] None (fun _ => []).
(** update_int_vars_gp, 245-255 *)
Definition update_int_vars_gp (sol : nodal) (params : nat -> nat -> crystal) : nat -> nat -> crystal :=
  fun c q => new_state rows qm dt (params c q) (local (params c q) (sol_to_grad F sol c q)).
(** compute_avg_stress, 270-291: the average over each cell *)
Definition sigma_cell (sol : nodal) (params : nat -> nat -> crystal) (c : nat) : mat := fun i j =>
  let u := sol_to_grad F sol c in
  let sigma q := P_to_sigma (PK_of rows dt (params c q) (u q) (local (params c q) (u q))) (F_of (u q)) in
  sumN (num_quads (f_ele F)) (fun q => sigma q i j * JxW F c q) / sumN (num_quads (f_ele F)) (fun q => JxW F c q).
End Body.

(** ** simulation in simple.py, 90-101, and calibration.py, 74-106. [stored] is
    problem.internal_vars['laplace']; [fwd] is fwd_pred, which first calls set_params(params); [upd] is
    update_int_vars_gp; [out] is what the last lines of the loop compute; [scale] is the in-place change
    params[1] = alpha*params[1] (nothing in simple.py). Result: the value returned (None: the name is
    unbound), and what problem.internal_vars['laplace'] is afterwards. *)
Section Simulation.
Context {P Sol Load Out : Type}.
Variables (fwd : Load -> P -> Sol) (upd : Sol -> P -> P) (out : Sol -> P -> Out).
Fixpoint sim_loop (loads : list Load) (params stored : P) (last : option Out) : option Out * P :=
  match loads with
  | [] => (last, stored)
  | ld :: rest => let sol := fwd ld params in sim_loop rest (upd sol params) params (Some (out sol params))
  end.
Definition simulation (scale : P -> P) (loads : list Load) (stored : P) : option Out * P :=
  let params := scale stored in sim_loop loads params params None.
End Simulation.
Close Scope R_scope.
