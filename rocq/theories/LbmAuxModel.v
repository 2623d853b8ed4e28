(** * Model of the remaining parts of jax_am/lbm/core.py: unit conversion, laser
    path, output numbering, momentum and heat sources. Definitions only. *)
From Verif Require Import Prelude LbmModel.
Open Scope R_scope.

(** ** Unit conversion, lbm/core.py:595-643 *)
Record lbm_args := mkArgs
  { a_h : R; a_dt : R; a_rho0 : R; a_T0 : R; a_M0 : R;
    a_gravity : R; a_mu : R; a_st : R; a_st_grad : R; a_rp : R;
    a_laser_power : R; a_beam : R; a_absorb : R;
    a_cp : R; a_diff_l : R; a_diff_s : R; a_emissivity : R; a_h_conv : R; a_Lv : R;
    a_Tl : R; a_Ts : R; a_Tev : R; a_es : R; a_el : R }.

Section Units.
Variable a : lbm_args.
(** lines 599-609; [h = dt = rho0 = T0 = M0 = 1] *)
Definition C_length := a_h a / 1.
Definition C_time := a_dt a / dt.
Definition C_density := a_rho0 a / rho0.
Definition C_temperature := a_T0 a / T0.
Definition C_molar_mass := a_M0 a / 1.
Definition C_mass := C_density * C_length ^ 3.
Definition C_force := C_mass * C_length / (C_time ^ 2).
Definition C_energy := C_force * C_length.
Definition C_pressure := C_force / C_length ^ 2.
Definition C_molar := C_mass / C_molar_mass.

(** lines 611-613 *)
Definition p_atm := 101325 / C_pressure.
Definition gas_const := 8314/1000 / (C_energy / (C_temperature * C_molar)).
Definition SB_const := 567/10000000000 / (C_mass / C_time ^ 3 / C_temperature ^ 4).

(** lines 615-642 *)
Definition gravity := a_gravity a / (C_length / C_time ^ 2).
Definition viscosity_mu := a_mu a / (C_mass / (C_length * C_time)).
Definition st_coeff := a_st a / (C_force / C_length).
Definition st_grad_coeff := a_st_grad a / (C_force / (C_length * C_temperature)).
Definition rp_coeff := a_rp a.
Definition laser_power := a_laser_power a / (C_energy / C_time).
Definition beam_size := a_beam a / C_length.
Definition absorbed_fraction := a_absorb a.
Definition heat_cap := a_cp a / (C_energy / (C_mass * C_temperature)).
Definition diffusivity_l := a_diff_l a / (C_length ^ 2 / C_time).
Definition diffusivity_s := a_diff_s a / (C_length ^ 2 / C_time).
Definition emissivity := a_emissivity a.
Definition h_conv := a_h_conv a / (C_mass / C_time ^ 3 / C_temperature).
Definition latent_heat_evap := a_Lv a / (C_energy / C_mass).
Definition T_evap := a_Tev a / C_temperature.
Definition viscosity_nu := viscosity_mu / rho0.
Definition derive_params : params :=
  mkParams (viscosity_nu / (cs_sq * dt) + 1/2)
           (diffusivity_l / (cs_sq * dt) + 1/2)
           (diffusivity_s / (cs_sq * dt) + 1/2)
           heat_cap
           (a_Ts a / C_temperature) (a_Tl a / C_temperature)
           (a_es a / (C_energy / C_mass)) (a_el a / (C_energy / C_mass)).

(** ** Momentum and heat sources *)

(** extract_3x3x3_grid, lbm/core.py:40-46, and the 7-wide variants 24-38:
    indices modulo the domain size. *)
Definition wrap (d : dims) (c : cell) (o : cell) : cell :=
  let '(x, y, z) := c in let '(i, j, k) := o in
  ((x + i) mod NX d, (y + j) mod NY d, (z + k) mod NZ d)%Z.
Definition at_off (d : dims) (v : field R) (c : cell) (i j k : Z) : R := v (wrap d c (i, j, k)).

(** get_phi, lbm/core.py:115-124 *)
Definition get_phi (d : dims) (vof : field R) (c : cell) : vec3 :=
  ((at_off d vof c 1 0 0 - at_off d vof c (-1) 0 0) / (2 * 1),
   (at_off d vof c 0 1 0 - at_off d vof c 0 (-1) 0) / (2 * 1),
   (at_off d vof c 0 0 1 - at_off d vof c 0 0 (-1)) / (2 * 1)).

(** height functions, lbm/core.py:126-144: sums over the seven cells -3..3 along one axis. *)
Definition seven : list Z := [-3; -2; -1; 0; 1; 2; 3]%Z.
Definition hf_x (d : dims) (vof : field R) (c : cell) (a b : Z) : R := sumR seven (fun t => at_off d vof c t a b).
Definition hf_y (d : dims) (vof : field R) (c : cell) (a b : Z) : R := sumR seven (fun t => at_off d vof c a t b).
Definition hf_z (d : dims) (vof : field R) (c : cell) (a b : Z) : R := sumR seven (fun t => at_off d vof c a b t).

(** curvature, lbm/core.py:146-156 (the denominator is at least 1, so the
    isfinite guard never fires over the reals). *)
Definition curvature (H : Z -> Z -> R) : R :=
  let Hx := (H 1%Z 0%Z - H (-1)%Z 0%Z) / (2 * 1) in
  let Hy := (H 0%Z 1%Z - H 0%Z (-1)%Z) / (2 * 1) in
  let Hxx := (H 1%Z 0%Z - 2 * H 0%Z 0%Z + H (-1)%Z 0%Z) / 1 ^ 2 in
  let Hyy := (H 0%Z 1%Z - 2 * H 0%Z 0%Z + H 0%Z (-1)%Z) / 1 ^ 2 in
  let Hxy := (H 1%Z 1%Z - H (-1)%Z 1%Z - H 1%Z (-1)%Z + H (-1)%Z (-1)%Z) / (4 * 1) in
  - (Hxx + Hyy + Hxx * Hy ^ 2 + Hyy * Hx ^ 2 - 2 * Hxy * Hx * Hy) / Rpower (1 + Hx ^ 2 + Hy ^ 2) (3 / 2).

(** lbm/core.py:158-165 *)
Definition kappa (d : dims) (vof : field R) (c : cell) : R :=
  let '(px, py, pz) := get_phi d vof c in
  if Rleb (Rabs py) (Rabs px) && Rleb (Rabs pz) (Rabs px) then curvature (hf_x d vof c)
  else if Rleb (Rabs px) (Rabs py) && Rleb (Rabs pz) (Rabs py) then curvature (hf_y d vof c)
  else curvature (hf_z d vof c).

(** compute_T_grad, lbm/core.py:169-182 *)
Definition T_masked (d : dims) (T : field R) (phase : field phase_t) (c : cell) (i j k : Z) : R :=
  let n := wrap d c (i, j, k) in
  if is_gas_or_wall (phase n) then at_off d T c 0 0 0 else T n.
Definition T_grad (d : dims) (T : field R) (phase : field phase_t) (c : cell) : vec3 :=
  let t := T_masked d T phase c in
  ((t 1%Z 0%Z 0%Z - t (-1)%Z 0%Z 0%Z) / (2 * 1),
   (t 0%Z 1%Z 0%Z - t 0%Z (-1)%Z 0%Z) / (2 * 1),
   (t 0%Z 0%Z 1%Z - t 0%Z 0%Z (-1)%Z) / (2 * 1)).

(** compute_f_source_term, lbm/core.py:187-198.  phi/|phi| with |phi| = 0 is
    nan and replaced by 0 (line 191). *)
Definition norm3 (v : vec3) : R := sqrt (dot v v).
Definition normal_of (phi : vec3) : vec3 :=
  if Reqb (norm3 phi) 0 then (0, 0, 0) else vscale (1 / norm3 phi) phi.
Definition marangoni (vof : R) (phi Tg : vec3) : vec3 :=
  let n := normal_of phi in
  vscale (norm3 phi * 2 * vof) (vscale st_grad_coeff (vadd Tg (vscale (- dot n Tg) n))).
Definition recoil (T : R) (phi : vec3) : vec3 :=
  vscale (rp_coeff * p_atm * exp (latent_heat_evap * 1 * (T - T_evap) / (gas_const * T * T_evap))) phi.
Definition f_source (rho vof : R) (phi : vec3) (k T : R) (Tg : vec3) : vec3 :=
  vadd (vadd (vadd (vscale rho (0, 0, - gravity)) (vscale (st_coeff * k) phi)) (marangoni vof phi Tg)) (recoil T phi).

(** compute_h_src, lbm/core.py:210-235, at the cell centroid (x, y, _). *)
Definition q_laser (switch x y laser_x laser_y : R) : R :=
  switch * 2 * laser_power * absorbed_fraction / (PI * beam_size ^ 2)
  * exp (-2 * ((x - laser_x) ^ 2 + (y - laser_y) ^ 2) / beam_size ^ 2).
Definition h_source (T vof : R) (phi : vec3) (x y laser_x laser_y switch : R) : R :=
  let q_rad := SB_const * emissivity * (T0 ^ 4 - T ^ 4) in
  let q_conv := h_conv * (T0 - T) in
  let q_loss := norm3 phi * (q_conv + q_rad) * 2 * vof in
  let '(_, _, pz) := phi in
  let tmp := - pz * 1 in
  let tmp := if Rltb 0 tmp then tmp else 0 in
  tmp * q_laser switch x y laser_x laser_y * 2 * vof + q_loss.

(** lbm/core.py:675-682: the sources used by [step]; the cell centroid is
    (x + 1/2, y + 1/2, z + 1/2) in lattice units (C04). *)
Definition model_sources (d : dims) (laser_x laser_y switch : R) : sources :=
  mkSrc (fun s rho vof T c => f_source (rho c) (vof c) (get_phi d vof c) (kappa d vof c) (T c) (T_grad d T (lphase s) c))
        (fun s vof T c => let '(x, y, z) := c in
           h_source (T c) (vof c) (get_phi d vof c) (IZR x + 1/2) (IZR y + 1/2) laser_x laser_y switch).
End Units.

(** ** Laser path, lbm/core.py:521-543 *)
Definition ceilR (x : R) : Z := (1 - up (- x))%Z.
(** onp.arange(start, stop, step): ceil((stop - start)/step) values. *)
Definition arange_len (start stop step : R) : nat := Z.to_nat (ceilR ((stop - start) / step)).
Definition arange (start stop step : R) : list R :=
  map (fun i => start + INR i * step) (seq 0 (arange_len start stop step)).

Definition path4 : Type := (list R * list R * list R * list R)%type.

(** One iteration of the loop at line 527: samples and the new [t_pre]. Missing list
    entries raise IndexError. *)
Definition segment (xc yc pc : list R) (vel dtv : R) (i : nat) (t_pre : R) : res (path4 * R) :=
  match nth_error xc i, nth_error xc (i + 1), nth_error yc i, nth_error yc (i + 1), nth_error pc i with
  | Some x0, Some x1, Some y0, Some y1, Some pw =>
      let traveled_dist := sqrt ((x1 - x0) ^ 2 + (y1 - y0) ^ 2) in
      let traveled_time := traveled_dist / vel in
      let ts := arange t_pre (t_pre + traveled_time + 1/10000000000) dtv in
      let n := length ts in
      Ok ((ts, linspace x0 x1 n, linspace y0 y1 n, linspace pw pw n), t_pre + traveled_time)
  | _, _, _, _, _ => Err IndexError
  end.

Fixpoint path_loop (xc yc pc : list R) (vel dtv : R) (n i : nat) (t_pre : R) : res path4 :=
  match n with
  | O => Ok ([], [], [], [])
  | S n' =>
      bind (segment xc yc pc vel dtv i t_pre) (fun r =>
      let '((ts, xs, ys, ps), t') := r in
      bind (path_loop xc yc pc vel dtv n' (i + 1) t') (fun r' =>
      let '(ts', xs', ys', ps') := r' in
      Ok (ts ++ ts', xs ++ xs', ys ++ ys', ps ++ ps')))
  end.

(** [hstack] of an empty list of arrays raises ValueError (line 541). *)
Definition read_path (x_corners y_corners switch : list R) (vel dtv : R) : res path4 :=
  let power_control := removelast switch in
  match (length x_corners - 1)%nat with
  | O => Err ValueError
  | n => path_loop x_corners y_corners power_control vel dtv n 0 0
  end.

(** lbm/core.py:573: total_time_steps = len(ts) - 1 *)
Definition total_time_steps (r : path4) : nat := let '(ts, _, _, _) := r in (length ts - 1)%nat.
Close Scope R_scope.

(** ** Output numbering: pairs (time step, file number) *)
(** lbm/core.py:663 and 718-721 *)
Definition lbm_outputs (steps interval : nat) : res (list (nat * nat)) :=
  if Nat.eqb interval 0 then (if Nat.eqb steps 0 then Ok [(0, 0)] else Err ZeroDivisionError)
  else Ok ((0, 0) :: map (fun i => (i + 1, (i + 1) / interval))
                         (filter (fun i => Nat.eqb ((i + 1) mod interval) 0) (seq 0 steps))).

(** applications/cfd/simple/example.py:46-54 and applications/phase_field/simple/example.py:59-67
    with cfd_am.py:381 / allen_cahn.py:184, where write_sols(step) divides by the interval. *)
Definition write_sols_number (step interval : nat) : nat := step / interval.
Definition driver_outputs (steps interval : nat) : res (list (nat * nat)) :=
  if Nat.eqb interval 0 then Err ZeroDivisionError
  else Ok ((0, write_sols_number 0 interval) ::
           map (fun i => (i + 1, write_sols_number (i + 1) interval))
               (filter (fun i => Nat.eqb ((i + 1) mod interval) 0) (seq 0 steps))).
