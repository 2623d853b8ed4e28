(** * Model of jax_am/phase_field/allen_cahn.py. Definitions only.
    Reals for floats. The state eta, of shape (num_cells, num_oris), is a function of the cell
    number and the orientation number; only arguments in range matter. *)
From Verif Require Import Prelude.
Open Scope R_scope.

Definition field2 : Type := nat -> nat -> R.

(** pf_args and mesh_h_xyz as used by allen_cahn.py:10-85; [g_dirs d o] is row d of
    unique_grain_directions[:, o, :] (three directions per orientation). *)
Record pfargs := mkPf
  { Nx : nat; Ny : nat; Nz : nat; num_oris : nat;
    h_x : R; h_y : R; h_z : R;
    m_g : R; kappa_g : R; ad_hoc : R; anisotropy : R;
    T_liquidus : R; L0 : R; Qg : R; gas_const : R;
    g_dirs : nat -> nat -> R * R * R }.
Definition num_cells (a : pfargs) : nat := (Nz a * (Ny a * Nx a))%nat.

(** ** local_energy_fn, allen_cahn.py:43-50 (gamma = 1) *)
Definition local_energy (a : pfargs) (eta : field2) (zeta : nat -> R) : R :=
  let cells := seq 0 (num_cells a) in
  let oris := seq 0 (num_oris a) in
  let grain_energy_1 := sumR cells (fun n => sumR oris (fun o => eta n o ^ 4 / 4 - eta n o ^ 2 / 2)) in
  let graph_energy_2 := 1 * (sumR cells (fun n => sumR oris (fun p => sumR oris (fun q => (eta n p * eta n q) ^ 2)))
                             - sumR cells (fun n => sumR oris (fun o => eta n o ^ 4))) in
  let graph_energy_3 := sumR cells (fun n => (1 - zeta n) ^ 2 * sumR oris (fun o => eta n o ^ 2)) in
  m_g a * (grain_energy_1 + graph_energy_2 + graph_energy_3).

(** local_energy_grad_fn = jax.grad(local_energy_fn), line 52. Automatic differentiation is
    external; this is the closed form, proved to be the derivative of [local_energy]. *)
Definition local_energy_grad (a : pfargs) (eta : field2) (zeta : nat -> R) : field2 := fun n o =>
  m_g a * ((eta n o ^ 3 - eta n o)
           + (4 * eta n o * sumR (seq 0 (num_oris a)) (fun p => eta n p ^ 2) - 4 * eta n o ^ 3)
           + 2 * (1 - zeta n) ^ 2 * eta n o).

(** ** Neighbour arrays, allen_cahn.py:61-67 *)
Definition eta_xyz (a : pfargs) (eta : field2) (k j i o : nat) : R := eta (k * (Ny a * Nx a) + j * Nx a + i)%nat o.
(** np.concatenate((p, q)) along one axis, p having length n. *)
Definition cat {X} (n : nat) (p q : nat -> X) (i : nat) : X := if Nat.ltb i n then p i else q (i - n)%nat.
Section Neigh.
Variables (a : pfargs) (eta : field2).
Let E := eta_xyz a eta.
Definition neg_x (k j i o : nat) : R := cat 1 (fun i => E k j i o) (fun i => E k j i o) i.
Definition pos_x (k j i o : nat) : R := cat (Nx a - 1) (fun i => E k j (i + 1)%nat o) (fun i => E k j (Nx a - 1 + i)%nat o) i.
Definition neg_y (k j i o : nat) : R := cat 1 (fun j => E k j i o) (fun j => E k j i o) j.
Definition pos_y (k j i o : nat) : R := cat (Ny a - 1) (fun j => E k (j + 1)%nat i o) (fun j => E k (Ny a - 1 + j)%nat i o) j.
Definition neg_z (k j i o : nat) : R := cat 1 (fun k => E k j i o) (fun k => E k j i o) k.
Definition pos_z (k j i o : nat) : R := cat (Nz a - 1) (fun k => E (k + 1)%nat j i o) (fun k => E (Nz a - 1 + k)%nat j i o) k.
End Neigh.

(** ** update_anisotropy_helper, allen_cahn.py:28-40. A zero edge vector gives 0/0, and an
    argument outside [-1,1] gives NaN in arccos; both become angle 0 (line 34). *)
Definition angle1 (d e : R * R * R) : R :=
  let '(d1, d2, d3) := d in
  let '(e1, e2, e3) := e in
  let norm := sqrt (e1 ^ 2 + e2 ^ 2 + e3 ^ 2) in
  if Reqb norm 0 then 0
  else let c := (d1 * e1 + d2 * e2 + d3 * e3) / norm in
       let th := if Rltb 1 (Rabs c) then 0 else acos c in
       if Rltb th (PI / 2) then th else PI - th.
Definition aniso_factor (a : pfargs) (o : nat) (e : R * R * R) : R :=
  let ang := Rmin (Rmin (angle1 (g_dirs a 0 o) e) (angle1 (g_dirs a 1 o) e)) (angle1 (g_dirs a 2 o) e) in
  1 + anisotropy a * (cos ang ^ 4 + sin ang ^ 4).

(** ** state_rhs, allen_cahn.py:53-85 *)
(** line 56: T = where(T > 2000, 2000, T) *)
Definition cap_T (t : R) : R := if Rltb 2000 t then 2000 else t.
(** line 57 *)
Definition zeta_of (a : pfargs) (t : R) : R := 1 / 2 * (1 - tanh (10 ^ 10 * (t / T_liquidus a - 1))).
(** lines 69-73 *)
Definition aniso_at (a : pfargs) (eta : field2) (k j i o : nat) : R :=
  if Rltb 0 (anisotropy a)
  then aniso_factor a o (pos_x a eta k j i o - neg_x a eta k j i o,
                         pos_y a eta k j i o - neg_y a eta k j i o,
                         pos_z a eta k j i o - neg_z a eta k j i o)
  else 1.
(** lines 76-82 *)
Definition laplace_xyz (a : pfargs) (eta : field2) (k j i o : nat) : R :=
  let c := eta_xyz a eta k j i o in
  let f := aniso_at a eta k j i o in
  - (((pos_x a eta k j i o - c) + (neg_x a eta k j i o - c)) / h_x a ^ 2 * f * kappa_g a * ad_hoc a)
  - (((pos_y a eta k j i o - c) + (neg_y a eta k j i o - c)) / h_y a ^ 2 * f * kappa_g a * ad_hoc a)
  - (((pos_z a eta k j i o - c) + (neg_z a eta k j i o - c)) / h_z a ^ 2 * f * kappa_g a * ad_hoc a).
Definition laplace (a : pfargs) (eta : field2) : field2 := fun n o =>
  laplace_xyz a eta (n / Nx a / Ny a) ((n / Nx a) mod Ny a) (n mod Nx a) o.
(** line 83 *)
Definition mobility (a : pfargs) (t : R) : R := L0 a * exp (- Qg a / (t * gas_const a)).
Definition state_rhs (a : pfargs) (T : nat -> R) (eta : field2) (t : R) : field2 := fun n o =>
  - mobility a (cap_T (T n)) *
    (local_energy_grad a eta (fun n => zeta_of a (cap_T (T n))) n o / ad_hoc a + laplace a eta n o).

(** ** Integrators, allen_cahn.py:91-114; [f] is the right-hand side with its parameters. *)
Definition f_add (x y : field2) : field2 := fun n o => x n o + y n o.
Definition f_scal (c : R) (x : field2) : field2 := fun n o => c * x n o.
Definition rk4 (f : field2 -> R -> field2) (state_pre : field2 * R) (t_crt : R) : field2 * R :=
  let '(y_prev, t_prev) := state_pre in
  let h := t_crt - t_prev in
  let k1 := f_scal h (f y_prev t_prev) in
  let k2 := f_scal h (f (f_add y_prev (f_scal (/ 2) k1)) (t_prev + h / 2)) in
  let k3 := f_scal h (f (f_add y_prev (f_scal (/ 2) k2)) (t_prev + h / 2)) in
  let k4 := f_scal h (f (f_add y_prev k3) (t_prev + h)) in
  (f_add y_prev (f_scal (1 / 6) (f_add (f_add (f_add k1 (f_scal 2 k2)) (f_scal 2 k3)) k4)), t_crt).
Definition explicit_euler (f : field2 -> R -> field2) (state_pre : field2 * R) (t_crt : R) : field2 * R :=
  let '(y_prev, t_prev) := state_pre in
  let h := t_crt - t_prev in
  (f_add y_prev (f_scal h (f y_prev t_prev)), t_crt).

(** PFSolver.stepper, allen_cahn.py:139-143, repeated: one temperature field and
    one new time per step (as in the application loops). *)
Fixpoint pf_run (integ : (field2 -> R -> field2) -> field2 * R -> R -> field2 * R)
    (a : pfargs) (steps : list ((nat -> R) * R)) (s : field2 * R) : field2 * R :=
  match steps with
  | [] => s
  | (T, t) :: r => pf_run integ a r (integ (state_rhs a T) s t)
  end.

(** write_sols, allen_cahn.py:182-210: the orientation written for a cell is
    argmax (first maximum). *)
Fixpoint argmax_from (l : list R) (i best : nat) (v : R) : nat :=
  match l with
  | [] => best
  | x :: r => if Rltb v x then argmax_from r (S i) i x else argmax_from r (S i) best v
  end.
Definition argmax (l : list R) : nat := match l with [] => 0%nat | x :: r => argmax_from r 1 0 x end.
Definition written_ori (a : pfargs) (eta : field2) (n : nat) : nat := argmax (map (eta n) (seq 0 (num_oris a))).

(** ** Coupled application, applications/phase_field/coupled/example.py *)
(** convert_temperature: T.transpose(2,1,0).reshape(-1,1); [T x y z] is the CFD array of shape
    (nx, ny, nz). *)
Definition convert_temperature (nx ny nz : nat) (T : nat -> nat -> nat -> R) : list R :=
  flat3 nz ny nx (fun k j i => T i j k).
(** interpolate_T *)
Definition interpolate_T (dt t_cfd t_pf : R) (T_past T_future : R) : R :=
  let ratio := (t_cfd - t_pf) / dt in
  ratio * T_past + (1 - ratio) * T_future.
(** The time loop of coupled_integrator, for the temperature of one cell. [snap m] is the value
    after m CFD steps (external); the state is the number m of the future snapshot
    (initially 1) and t_cfd (initially dt). One entry (t_pf, m, T_pf) per phase-field step. *)
Fixpoint coupled_loop (dt : R) (snap : nat -> R) (m : nat) (t_cfd : R) (ts : list R) : list (R * nat * R) :=
  match ts with
  | [] => []
  | t_pf :: r =>
      let '(m', t') := if Rltb (t_cfd + dt) t_pf then (S m, t_cfd + dt) else (m, t_cfd) in
      (t_pf, m', interpolate_T dt t' t_pf (snap (m' - 1)%nat) (snap m')) :: coupled_loop dt snap m' t' r
  end.
Definition coupled_run (dt : R) (snap : nat -> R) (ts : list R) : list (R * nat * R) :=
  (0, 1%nat, interpolate_T dt dt 0 (snap 0%nat) (snap 1%nat)) :: coupled_loop dt snap 1 dt ts.
Close Scope R_scope.
