(** * Specification vocabulary for the velocity update of the CFD solver: prediction and pressure correction. *)
From Verif Require Import Prelude CfdMeshModel CfdModel CfdSpec.
Open Scope R_scope.

(** bicgstab finds a solution of every linear system of the mesh that has one *)
Definition exact_bicg (m : mesh3) (bicg : (fld -> fld) -> fld -> fld) : Prop :=
  forall v b, (exists x, forall n, (n < cell_num m)%nat -> linearized_residual m v x n = b n) ->
  forall n, (n < cell_num m)%nat -> linearized_residual m v (bicg (linearized_residual m v) b) n = b n.

(** the window, its faces and the divergence of a velocity field on it *)
Definition in_box (m : mesh3) (i j k : nat) : Prop := (i < mNx m)%nat /\ (j < mNy m)%nat /\ (k < mNz m)%nat.
Definition divergence (a : amargs) (T : arr) (vel : nat -> arr) : arr :=
  let g := grid_of (a_local a) in let B := vel_BCs a T in
  face_div g (face_u g B vel) (face_v g B vel) (face_w g B vel).
(** [p] solves the pressure equation for the predicted velocity [vel] *)
Definition pressure_solution (a : amargs) (T : arr) (vel : nat -> arr) (p : fld) : Prop :=
  exists e r, pressure_eqn a (flat (a_local a) (div_vel a (vel_BCs a T) vel)) = Ok e /\ compute_residual e None p = Ok r /\
    forall n, (n < cell_num (a_local a))%nat -> r n = 0.
(** velocity after the correction with [p] *)
Definition corrected (a : amargs) (vel : nat -> arr) (p : fld) : nat -> arr := correct_vel a vel (unflat (a_local a) p).

(** Fourth difference along an axis of n cells whose values are mirrored at both ends; entry p of the
    extended axis is cell p - 2. *)
Definition mirror (n p : nat) : nat :=
  let j := if Nat.ltb p 2 then (1 - p)%nat else (p - 2)%nat in if Nat.ltb j n then j else (2 * n - 1 - j)%nat.
Definition fourth (n : nat) (f : nat -> R) (i : nat) : R :=
  f (mirror n (i + 4)) - 4 * f (mirror n (i + 3)) + 6 * f (mirror n (i + 2)) - 4 * f (mirror n (i + 1)) + f (mirror n i).
Definition roughness (m : mesh3) (p : fld) (i j k : nat) : R :=
  fourth (mNx m) (fun i => p (cell_idx m i j k)) i / (4 * dXx m ^ 2)
  + fourth (mNy m) (fun j => p (cell_idx m i j k)) j / (4 * dXy m ^ 2)
  + fourth (mNz m) (fun k => p (cell_idx m i j k)) k / (4 * dXz m ^ 2).

(** sums of squares over the window: velocity, and the differences of p across the inner faces *)
Definition box_of (m : mesh3) (f : arr) : R := box_sum (mNx m) (mNy m) (mNz m) f.
Definition kinetic (m : mesh3) (vel : nat -> arr) : R := sumR (seq 0 3) (fun c => box_of m (fun i j k => vel c i j k ^ 2)).
Definition face_energy (m : mesh3) (p : fld) : R :=
  sumR (seq 0 (mNy m)) (fun j => sumR (seq 0 (mNz m)) (fun k => sumR (seq 0 (mNx m - 1)) (fun i =>
    ((p (cell_idx m (i + 1) j k) - p (cell_idx m i j k)) / dXx m) ^ 2)))
  + sumR (seq 0 (mNx m)) (fun i => sumR (seq 0 (mNz m)) (fun k => sumR (seq 0 (mNy m - 1)) (fun j =>
    ((p (cell_idx m i (j + 1) k) - p (cell_idx m i j k)) / dXy m) ^ 2)))
  + sumR (seq 0 (mNx m)) (fun i => sumR (seq 0 (mNy m)) (fun j => sumR (seq 0 (mNz m - 1)) (fun k =>
    ((p (cell_idx m i j (k + 1)) - p (cell_idx m i j k)) / dXz m) ^ 2))).

(** prediction: [u] solves the equation of velocity component c *)
Definition vel_solution (a : amargs) (T : arr) (c : nat) (u0 conv gradp fl : fld) (u : fld) : Prop :=
  exists (e : eqn) (r : fld), vel_eqn a u0 conv gradp fl = Ok e /\ compute_residual e (Some (vel_bc_scalar a T c)) u = Ok r /\
    forall n, (n < cell_num (a_local a))%nat -> r n = 0.
(** the velocity that convection and the old pressure gradient alone would give *)
Definition pushed (a : amargs) (u0 conv gradp : fld) : fld := fun n => u0 n - a_dt a * conv n - a_dt a / a_rho a * gradp n.
(** resistance of a cell with liquid fraction f *)
Definition resistance (a : amargs) (f : R) : R := 10 ^ 7 * a_rho a * (1 - f) ^ 2 / (f ^ 3 + 1 / 10 ^ 5).
(** work of the surface tension on velocity component c along the top, per unit area *)
Definition top_power (a : amargs) (T : arr) (c : nat) (u : fld) : R :=
  let l := a_local a in
  sumR (seq 0 (mNx l)) (fun i => sumR (seq 0 (mNy l)) (fun j =>
    a_visco a * marangoni_effect a (fun i j => T i j (mNz l - 1)%nat) c i j * u (cell_idx l i j (mNz l - 1)))).
Definition sumsq (m : mesh3) (u : fld) : R := sumR (seq 0 (cell_num m)) (fun n => u n ^ 2).
Close Scope R_scope.
