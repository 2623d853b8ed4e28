(** * applications/fem/design/curve.py: a beam whose material is distributed so that a line of it takes
    the shape of a sine when its ends are pushed together. *)
From Verif Require Import Prelude FemModel MatModel.
Open Scope R_scope.

(** stress, curve.py:27-43; theta ** 3 as a power with an integer exponent, which is also right at theta = 0 *)
Definition cur_E (theta : R) : R :=
  let Emax := 70000 in let Emin := / 1000 * Emax in Emin + (Emax - Emin) * theta ^ 3.
Definition cur_stress (theta : R) (u_grad : mat) : mat :=
  let nu := 3 / 10 in
  let E := cur_E theta in
  let epsilon := fun i j => / 2 * (u_grad i j + u_grad j i) in
  let eps11 := epsilon 0%nat 0%nat in
  let eps22 := epsilon 1%nat 1%nat in
  let eps12 := epsilon 0%nat 1%nat in
  let sig11 := E / (1 + nu) / (1 - nu) * (eps11 + nu * eps22) in
  let sig22 := E / (1 + nu) / (1 - nu) * (nu * eps11 + eps22) in
  let sig12 := E / (1 + nu) * eps12 in
  fun i j => match i, j with O, O => sig11 | O, _ => sig12 | S _, O => sig12 | S _, S _ => sig22 end.
(** the argument theta of stress is 1 when there is no internal variable, and otherwise the row of
    parameters of the cell (one number) *)
Definition cur_map (vars : list (list R)) (u_grad : mat) : mat :=
  match vars with
  | [] => cur_stress 1 u_grad
  | row :: _ => cur_stress (nth 0 row 0) u_grad
  end.
(** full_params.at[flex_inds].set(params) of an array of ones, 49-50; params with one column *)
Definition full_params (flex_inds : list nat) (params : list R) : nat -> R :=
  fold_left (fun f u => fun c => if Nat.eqb c (fst u) then snd u else f c) (combine flex_inds params) (fun _ => 1).
(** custom_init, 22: flex_inds = arange(len(cells)); set_params, 46-53 *)
Definition cur_vars (F : fem (list R)) (params : list R) : internal_vars (list R) :=
  let full := full_params (seq 0 (num_cells F)) params in
  mkIv [] [map (fun c => fun _ : nat => [full c]) (seq 0 (num_cells F))] None (fun _ => []).
(** inds and target_y_vals, 129-130, and the error of J_total, 136-138 *)
Definition cur_error (F : fem (list R)) (Lx : R) (on_line : nat -> bool) (sol : nodal) : R :=
  sumR (filter on_line (seq 0 (num_total_nodes F))) (fun n => (sol n 1%nat - 15 / 100 * sin (2 * PI / Lx * points F n 0%nat)) ^ 2).
(** computeGlobalVolumeConstraint, 166-168, with vf = 1 *)
Definition cur_constraint (params : list R) : R := sumR params (fun r => r) / INR (length params) / 1 - 1.
Close Scope R_scope.
