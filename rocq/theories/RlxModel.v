(** * applications/fem/buckling/dr.py (DynamicRelaxSolve) and the body of dynamic_relax_solve in
    jax_am/fem/solver.py. Floats are real numbers. The assembled force vector and stiffness matrix
    of dolfin, with the homogenised boundary conditions applied, are arguments [asm_R] and [asm_K];
    a quotient by zero makes the velocities not finite, which is [None]. Printing, timing and the
    saving and restoring of boundary values are left out. *)
From Verif Require Import Prelude FemModel SolverModel.
Open Scope R_scope.
Open Scope list_scope.

(** np.max(np.absolute(v)) *)
Definition max_abs (N : nat) (v : vector) : R := fold_right (fun i m => Rmax (Rabs (v i)) m) 0 (seq 0 N).
(** parameters not to change, dr.py:126, solver.py:735-738 *)
Definition cmin : R := / 1000.
Definition cmax : R := 39 / 10.
Definition h_tilde : R := 11 / 10.
Definition hstep : R := 1.
(** M, dr.py:147, solver.py:759-760: absolute row sums *)
Definition mass (N : nat) (K : mat) : vector := fun i => h_tilde * h_tilde / 4 * sumN N (fun j => Rabs (K i j)).
Definition has_zero (N : nat) (M : vector) : bool := existsb (fun i => Reqb (M i) 0) (seq 0 N).

Record rstate : Type := mkRs
  { rs_q : vector; rs_qdot : option vector; rs_qdotdot : vector; rs_qdotdot_old : vector;
    rs_R : vector; rs_M : vector; rs_error : R; rs_nIters : nat; rs_iKMat : nat }.
Inductive relaxed : Type := Converged (q : vector) (nIters : nat) | Failed (nIters : nat).

Section Relax.
Variable N : nat.
Variable asm_R : vector -> vector.
Variable asm_K : vector -> mat.
Variable tol : R.
Variable nKMat : nat.
(** dr.py:145-151; [u] already carries the boundary values (line 140) *)
Definition relax_init (u : vector) : rstate :=
  let Rv := asm_R u in
  let M := mass N (asm_K u) in
  let qdot := if has_zero N M then None else Some (fun i => - hstep / 2 * Rv i / M i) in
  mkRs u qdot (fun _ => 0) (fun _ => 0) Rv M 1 0 0.
(** one pass of the loop, dr.py:159-184, with velocities [qdot] *)
Definition relax_step (st : rstate) (qdot : vector) : rstate :=
  let q := fun i => rs_q st i + hstep * qdot i in
  let Rv := asm_R q in
  let iKMat := S (rs_iKMat st) in
  let error := max_abs N Rv in
  let S0 := sumN N (fun i => (Rv i - rs_R st i) / hstep * qdot i) in
  let den := sumN N (fun i => qdot i * rs_M st i * qdot i) in
  let eps := fun i => h_tilde * h_tilde / 4 * Rabs (if Reqb (q i - rs_q st i) 0 then 0 else (rs_qdotdot st i - rs_qdotdot_old st i) / (q i - rs_q st i)) in
  let again := (Rltb 1 (max_abs N eps) && Nat.ltb nKMat iKMat)%bool in
  let M := if again then mass N (asm_K q) else rs_M st in
  let c := calC (S0 / den) cmin cmax in
  let qdot' := fun i => (2 - c * hstep) / (2 + c * hstep) * qdot i - 2 * hstep / (2 + c * hstep) * Rv i / M i in
  mkRs q (if (Reqb den 0 || has_zero N M)%bool then None else Some qdot') (fun i => qdot' i - qdot i) (rs_qdotdot st) Rv M error (S (rs_nIters st)) (if again then 0%nat else iKMat).
(** the loop, dr.py:155-190, and the convergence flag, 202-204. Velocities that are not finite make
    the next positions, forces and error not a number; then `error > tol` is false and the flag is False.
    [None]: still running. *)
Fixpoint relax_loop (fuel : nat) (st : rstate) : option relaxed :=
  if Rltb tol (rs_error st) then
    match fuel with
    | O => None
    | S fuel => match rs_qdot st with None => Some (Failed (S (rs_nIters st))) | Some qdot => relax_loop fuel (relax_step st qdot) end
    end
  else Some (Converged (rs_q st) (rs_nIters st)).
(** DynamicRelaxSolve, dr.py:119-214 *)
Definition DynamicRelaxSolve (fuel : nat) (u : vector) : option relaxed := relax_loop fuel (relax_init u).
End Relax.

(** ** dynamic_relax_solve after the linear guess, solver.py:734-831 *)
Section Solver.
Variable P : problem.
Variable compute_residual : nodal -> res nodal.
Variable tol : R.
(** assembleVec, 750-754 *)
Definition assemble_vec (dofs : vector) : res vector := bind (compute_residual (reshape P dofs)) (fun r => Ok (assign_zeros_bc P (ravel P r))).
(** assembleCSR, 661-682; zeroRows puts ones on the diagonal *)
Definition assemble_csr (dofs : vector) : res mat :=
  bind (newton_update P (reshape P dofs)) (fun r => Ok (fold_left (fun A i => zero_rows (bc_rows P i) A) (bc_range P) (coo_entry (snd r)))).
(** The asserts of 768-770 fail when a quotient by M is not finite. The update of the velocities, 810-811, is
    commented out, and the call of printInfo at 816 leaves out two of its parameters, which raises TypeError
    at the end of the first pass. *)
Definition relax_rest (dofs : vector) : res nodal :=
  let N := num_total_dofs P in
  bind (assemble_vec dofs) (fun Rv =>
  bind (assemble_csr dofs) (fun K =>
  let M := mass N K in
  if has_zero N M then Err AssertionError else
  let qdot := fun i => - hstep / 2 * Rv i / M i in
  if Rltb tol (max_abs N Rv) then
    bind (assemble_vec (fun i => dofs i + hstep * qdot i)) (fun _ => Err TypeError)
  else Ok (reshape P dofs))).
End Solver.
Close Scope R_scope.
